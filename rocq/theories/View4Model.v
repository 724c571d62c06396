(** * Model: views that hold their own converted matrix (Case 4), their copies, and chains of views.

    Files (under /repo/OpenKalman/linear-algebra/adapters): details/CovarianceBase4.hpp, details/CovarianceBase2.hpp,
    SquareRootCovariance.hpp, Covariance.hpp, details/CovarianceImpl.hpp.

    The owner is a covariance whose nested matrix is of its own kind (Case 1): a Covariance holding a self-adjoint matrix,
    or a SquareRootCovariance holding a triangular one.  square_root() & (Covariance.hpp l.526-538), respectively
    square() & (SquareRootCovariance.hpp l.485-497), makes a Case 4 object: a reference to the owner's nested matrix, a
    matrix of the other kind of its own (cholesky_nested_store), a reference to that matrix (cholesky_nested_link) and
    functions that capture [this].  Exact arithmetic, real scalars, lower triangles.

    Objects have names.  A name is used for one object only, so that a reference to an object that is gone is recognised:
    using it is undefined behaviour. *)
From mathcomp Require Import all_ssreflect all_algebra.
From Verif Require Import MatBase LibModel CovModel SqrtModel.
Set Implicit Arguments.
Unset Strict Implicit.
Unset Printing Implicit Defensive.
Import GRing.Theory Num.Theory Order.Theory.
Local Open Scope ring_scope.

(** What a program does: go on, throw an exception, or have undefined behaviour. *)
Inductive res4 A := Done of A | Threw | Undef.
Arguments Threw {A}.
Arguments Undef {A}.
Definition bind4 A B (x : res4 A) (f : A -> res4 B) : res4 B :=
  match x with Done a => f a | Threw => Threw | Undef => Undef end.

(** A named object: not yet made, in existence, or destroyed. *)
Inductive slot A := Unborn | Alive of A | Dead.
Arguments Unborn {A}.
Arguments Dead {A}.

Section Views.
Variable R : rcfType.
Variable n : nat.
Notation M := 'M[R]_n.

(** The kinds of views of an owner. *)
Inductive vkind :=
| KConv     (* Case 4, made from a Case 1 owner: CovarianceBase4.hpp l.187-200                    *)
| KBack     (* Case 2, made by the opposite conversion from a Case 4 view: CovarianceBase2.hpp l.215-222 *)
| KChain.   (* Case 4, made from such a Case 2 view: CovarianceBase4.hpp l.219-236               *)

(** A view: the owner its nested matrix refers to; the view whose members its functions captured and whose store
    cholesky_nested_link refers to ([loc]); the view captured by reference as [arg]; its own cholesky_nested_store. *)
Record view := View { vown : nat; vkd : vkind; vloc : nat; varg : nat; vstore : M }.

Record sys := Sys { owners : nat -> slot M; views : nat -> slot view }.

Definition sput A (f : nat -> slot A) (k : nat) (x : slot A) : nat -> slot A := fun p => if p == k then x else f p.
Definition get A (x : slot A) : res4 A := match x with Alive a => Done a | _ => Undef end.
Definition put_owner (s : sys) (i : nat) (N : M) : sys := Sys (sput (owners s) i (Alive N)) (views s).
Definition put_view (s : sys) (k : nat) (v : view) : sys := Sys (owners s) (sput (views s) k (Alive v)).

(** The conversions between the owner's kind and the other kind (to_covariance_nestable):
    [cv] from the nested matrix, [bk] back to it. *)
Variables cv bk : M -> M.

(** synchronize_forward of the view [k].  A Case 4 view made from a Case 1 owner converts the nested matrix into its store
    (CovarianceBase4.hpp l.193-195); a copy and a Case 2 view made from it hold the same function, which captured the
    original (l.164 "= default"; CovarianceBase2.hpp l.219).  A Case 4 view made from a Case 2 view copies that view's
    cholesky_nested_matrix() (l.225-228), which is the store of the view that one was made from (CovarianceBase2.hpp
    l.217); synchronization_direction() of the argument is 1 here, so nothing is synchronised before. *)
Definition forward (s : sys) (v : view) : res4 sys :=
  bind4 (get (views s (vloc v))) (fun t =>
  match vkd t with
  | KChain =>
      bind4 (get (views s (varg t))) (fun w =>
      bind4 (get (views s (varg w))) (fun a =>
      bind4 (get (views s (vloc a))) (fun b =>
      Done (put_view s (vloc v) (View (vown t) (vkd t) (vloc t) (varg t) (vstore b))))))
  | _ =>
      bind4 (get (owners s (vown t))) (fun N =>
      Done (put_view s (vloc v) (View (vown t) (vkd t) (vloc t) (varg t) (cv N))))
  end).

(** synchronize_reverse: CovarianceBase4.hpp l.153-159, l.196, l.229-232 (mark_nested_matrix_changed does nothing). *)
Definition reverse (s : sys) (v : view) : res4 sys :=
  bind4 (get (views s (vloc v))) (fun t =>
  bind4 (get (owners s (vown t))) (fun _ => Done (put_owner s (vown t) (bk (vstore t))))).

(** cholesky_nested_matrix() of a view: cholesky_nested_link (CovarianceBase4.hpp l.87-91); for a Case 2 view the function
    that captured its argument (CovarianceBase2.hpp l.217). *)
Definition linked (s : sys) (v : view) : res4 M :=
  match vkd v with
  | KBack => bind4 (get (views s (varg v))) (fun a => bind4 (get (views s (vloc a))) (fun t => Done (vstore t)))
  | _ => bind4 (get (views s (vloc v))) (fun t => Done (vstore t))
  end.

(** Writing the converted matrix through cholesky_nested_link. *)
Definition set_linked (s : sys) (v : view) (X : M) : res4 sys :=
  bind4 (get (views s (vloc v))) (fun t =>
  Done (put_view s (vloc v) (View (vown t) (vkd t) (vloc t) (varg t) X))).

(** The shapes of the operations that change a value.
    [Through f]: synchronize_forward, apply f to the converted matrix, synchronize_reverse (synchronization_direction() is
    always 1);  [Replace X]: store X and synchronize_reverse;  [Direct g]: apply g to the nested matrix. *)
Inductive act := Through of (M -> M) | Replace of M | Direct of (M -> option M).

Definition do_act (s : sys) (v : view) (a : act) : res4 sys :=
  match a with
  | Through f => bind4 (forward s v) (fun s1 => bind4 (linked s1 v) (fun X =>
                 bind4 (set_linked s1 v (f X)) (fun s2 => reverse s2 v)))
  | Replace X => bind4 (set_linked s v X) (fun s1 => reverse s1 v)
  | Direct g => bind4 (get (owners s (vown v))) (fun N =>
                match g N with Some N' => Done (put_owner s (vown v) N') | None => Threw end)
  end.

(** The reads.  [conv]: the converted matrix (get_nested_matrix_impl<false>, CovarianceImpl.hpp l.169-181); [nest]: the
    nested matrix (get_nested_matrix_impl<true>). *)
Definition read_conv (s : sys) (v : view) : res4 (sys * M) :=
  bind4 (forward s v) (fun s1 => bind4 (linked s1 v) (fun X => Done (s1, X))).
Definition read_nest (s : sys) (v : view) : res4 M := get (owners s (vown v)).

(** ** Programs. *)

Variables wop oop : Type.
Variable wact : vkind -> wop -> act.               (* what a write through a view of each kind does *)
Variable ostep : M -> oop -> option M.             (* what an operation on the owner does            *)

Inductive op4 :=
| New of nat & M                (* a new owner                                                        *)
| Own of nat & oop              (* an operation on the owner                                           *)
| OwnRead of nat                (* read the owner's matrix                                             *)
| KillOwner of nat
| MakeView of nat & nat         (* k = square_root(i) or square(i), i an owner                         *)
| CopyView of nat & nat         (* k is copy- or move-constructed from the view j (the members are const: moving copies) *)
| BackView of nat & nat         (* k = the opposite conversion of the view j                           *)
| ChainView of nat & nat        (* k = the first conversion again, of the view j made by BackView       *)
| KillView of nat
| Write of nat & wop            (* an operation that changes the view                                  *)
| AssignView of nat & nat       (* k = j, copy assignment between views of the first kind (CovarianceBase4.hpp l.399-423) *)
| ReadConv of nat               (* read the converted matrix                                           *)
| ReadNest of nat.              (* read the other matrix                                               *)

Definition fresh A (x : slot A) (k : res4 (sys * option M)) : res4 (sys * option M) :=
  match x with Unborn => k | _ => Undef end.

Definition step4 (s : sys) (o : op4) : res4 (sys * option M) :=
  match o with
  | New i N => fresh (owners s i) (Done (put_owner s i N, None))
  | Own i o => bind4 (get (owners s i)) (fun N =>
      match ostep N o with Some N' => Done (put_owner s i N', None) | None => Threw end)
  | OwnRead i => bind4 (get (owners s i)) (fun N => Done (s, Some N))
  | KillOwner i => bind4 (get (owners s i)) (fun _ => Done (Sys (sput (owners s) i Dead) (views s), None))
  | MakeView k i => fresh (views s k) (bind4 (get (owners s i)) (fun _ =>
      Done (put_view s k (View i KConv k k 0), None)))
  | CopyView k j => fresh (views s k) (bind4 (get (views s j)) (fun v => Done (put_view s k v, None)))
  | BackView k j => fresh (views s k) (bind4 (get (views s j)) (fun v =>
      Done (put_view s k (View (vown v) KBack (vloc v) j 0), None)))
  | ChainView k j => fresh (views s k) (bind4 (get (views s j)) (fun v =>
      Done (put_view s k (View (vown v) KChain k j 0), None)))
  | KillView k => bind4 (get (views s k)) (fun _ => Done (Sys (owners s) (sput (views s) k Dead), None))
  | Write k w => bind4 (get (views s k)) (fun v => bind4 (do_act s v (wact (vkd v) w)) (fun s' => Done (s', None)))
  | AssignView k j => bind4 (get (views s k)) (fun v => bind4 (get (views s j)) (fun u =>
      if k == j then Done (s, None) else
      bind4 (get (owners s (vown u))) (fun N =>
      bind4 (get (owners s (vown v))) (fun _ => Done (put_owner s (vown v) N, None)))))
  | ReadConv k => bind4 (get (views s k)) (fun v =>
      bind4 (read_conv s v) (fun p => Done (p.1, Some p.2)))
  | ReadNest k => bind4 (get (views s k)) (fun v => bind4 (read_nest s v) (fun N => Done (s, Some N)))
  end.

Fixpoint run4 (s : sys) (os : seq op4) : res4 (sys * seq (option M)) :=
  match os with
  | [::] => Done (s, [::])
  | o :: os' => bind4 (step4 s o) (fun p => bind4 (run4 p.1 os') (fun q => Done (q.1, p.2 :: q.2)))
  end.

(** Nothing exists at the start. *)
Definition sys0 : sys := Sys (fun _ => Unborn) (fun _ => Unborn).

End Views.

Arguments Through {R n}.
Arguments Replace {R n}.
Arguments Direct {R n}.

Arguments New {R n wop oop}.
Arguments Own {R n wop oop}.
Arguments OwnRead {R n wop oop}.
Arguments KillOwner {R n wop oop}.
Arguments MakeView {R n wop oop}.
Arguments CopyView {R n wop oop}.
Arguments BackView {R n wop oop}.
Arguments ChainView {R n wop oop}.
Arguments KillView {R n wop oop}.
Arguments Write {R n wop oop}.
Arguments AssignView {R n wop oop}.
Arguments ReadConv {R n wop oop}.
Arguments ReadNest {R n wop oop}.

Section Instances.
Variable R : rcfType.
Variable L : lib R.
Variable n : nat.
Notation M := 'M[R]_n.

(** ** Square-root views of a Covariance holding a self-adjoint matrix. *)

(** cholesky_factor and cholesky_square (to_covariance_nestable). *)
Definition to_tri (P : M) : M := lchol L P.
Definition to_sa (T : M) : M := T *m T^T.

(** Operations that change a square-root view, and the same through the Covariance obtained from it by square() &. *)
Inductive rop :=
| RAdd of M | RSub of M | RMulTri of M | RMul of R | RDiv of R | RRank (m : nat) (U : 'M[R]_(n, m)) (a : R)
| RElt of 'I_n & 'I_n & R       (* view(i,j) = r, set_component(view, r, i, j)   *)
| RTri of M                     (* view = T, T triangular                        *)
| RSelfAdj of M                 (* view = P, P self-adjoint                      *)
| RCov of op1 R n.              (* an operation of a Covariance, through square() of the view *)

(** += , -=, *= (triangular): SquareRootCovariance.hpp l.304-316, l.360-372, l.458-470;  *=, /= (scalar): l.406-410,
    l.428-432 with synchronization_direction() = 1;  rank_update: l.555-561, the nested matrix is hermitian;
    elements: CovarianceBase4.hpp l.560-576, l.622-628;  assignments: l.533-550.
    The Covariance is Case 2 with a hermitian nested matrix: Covariance.hpp l.293-297 etc.; CovarianceBase2.hpp l.314-319. *)
Definition ract (k : vkind) (w : rop) : act R n :=
  match w with
  | RAdd Q => Through (fun T => T + Q)
  | RSub Q => Through (fun T => T - Q)
  | RMulTri Q => Through (fun T => T *m Q)
  | RMul a => Direct (fun P => Some ((a * a) *: P))
  | RDiv a => Direct (fun P => if a == 0 then None else Some ((a * a)^-1 *: P))
  | RRank m U a => Direct (fun P => Some (P + a *: (U *m U^T)))
  | RElt i j r => Through (fun T => set_elt T i j r)
  | RTri T => Replace T
  | RSelfAdj P => Direct (fun _ => Some P)
  | RCov o => Direct (fun P => step1 P o)
  end.

(** A new value for the owner, or an operation on it (CovarianceBase1.hpp; Covariance.hpp). *)
Definition sa_step (P : M) (o : M + op1 R n) : option M :=
  match o with inl Q => Some Q | inr o => step1 P o end.

(** ** Square views of a SquareRootCovariance holding a triangular matrix. *)

(** Operations that change a Covariance whose nested matrix is triangular, and (SRoot) the same through the
    SquareRootCovariance obtained from it by square_root() &.  Arguments of += and -= are self-adjoint matrices. *)
Inductive sop :=
| SAdd of M | SSub of M | SMul of R | SDiv of R | SScale of R | SInvScale of R
| SRank (m : nat) (U : 'M[R]_(n, m)) (a : R)
| SElt of 'I_n & 'I_n & R
| SSelfAdj of M | STri of M
| SRoot of qop1 R n.

(** Covariance.hpp with synchronization_direction() = 1: += l.298-321 (LQ of [nested, factor of Q]), -= l.354-368,
    *= l.398-427, /= l.443-467, scale l.484-490, inverse_scale l.507-513, rank_update l.600-613; elements and assignments as
    above. *)
Definition sact (k : vkind) (w : sop) : act R n :=
  match w with
  | SAdd Q => Direct (fun T => Some (llq L (row_mx T (lchol L Q))))
  | SSub Q => Direct (fun T => lrank L T (lchol L Q) (-1))
  | SMul a => Direct (fun T => if 0 < a then Some (Num.sqrt a *: T)
                               else if a < 0 then lrank L 0 T a else Some 0)
  | SDiv a => Direct (fun T => if 0 < a then Some ((Num.sqrt a)^-1 *: T)
                               else if a < 0 then lrank L 0 T a^-1 else None)
  | SScale a => Direct (fun T => Some (a *: T))
  | SInvScale a => Direct (fun T => if a == 0 then None else Some (a^-1 *: T))
  | SRank m U a => Direct (fun T => lrank L T U a)
  | SElt i j r => Through (fun P => set_sym P i j r)
  | SSelfAdj P => Replace P
  | STri T => Direct (fun _ => Some T)
  | SRoot o => Direct (fun T => qstep1 L T o)
  end.

Definition tri_step (T : M) (o : M + qop1 R n) : option M :=
  match o with inl Q => Some Q | inr o => qstep1 L T o end.

(** Programs with square-root views, and programs with square views. *)
Definition run_sa := run4 to_tri to_sa ract sa_step.
Definition run_tri := run4 to_sa to_tri sact tri_step.

End Instances.

(** ** A view of the Case 2 view of a covariance in Cholesky form.

    c is a Covariance with a triangular nested matrix (CovModel.v); w = square_root(c) is Case 2 (ViewModel.v); u =
    square(w) is Case 4 made from Case 2.  Reading u: synchronize_forward (CovarianceBase4.hpp l.225-228) brings the
    owner's nested matrix up to date if needed (w forwards both functions to the owner, CovarianceBase2.hpp l.199-202) and
    then copies w.cholesky_nested_matrix(), which is the owner's cholesky_nested as it stands (l.198). *)
Section Nested.
Variable R : rcfType.
Variable L : lib R.
Variable n : nat.
Definition square_of_root_read (c : cov R n) : 'M[R]_n :=
  chol (if sd_lt0 (sd c) then sync_reverse L c else c).
End Nested.
