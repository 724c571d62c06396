(** * Model of the pattern descriptors over the real numbers.

    Scalars are real numbers.  Each input scalar also carries the sign bit it has when its value is
    zero ([sz]), because several functions branch on [values::signbit]; a real number has only one
    zero.  Inputs that are NaN or infinite are not modelled.  Rounding is not modelled here (see
    FloatModel.v).  Complex scalars are not modelled (the code applies the same real formulas to the
    real part).

    Every function returns a [res]: a value, a thrown exception, undefined behaviour, or NaN. *)
From Coq Require Import Reals List ZArith Lra Lia.
Import ListNotations.
Local Open Scope R_scope.

(** Outcome of a call.  [Undef] = undefined behaviour or violated static precondition (a data view of
    the wrong length is rejected by static_assert / out-of-range access), [Nan] = a NaN result. *)
Inductive res (A : Type) : Type :=
| Ret : A -> res A
| Throws : res A
| Undef : res A
| Nan : res A.
Arguments Ret {A} a.  Arguments Throws {A}.  Arguments Undef {A}.  Arguments Nan {A}.

Definition bind {A B} (m : res A) (f : A -> res B) : res B :=
  match m with Ret a => f a | Throws => Throws | Undef => Undef | Nan => Nan end.

(** A scalar: its value, and its sign bit should the value be zero. *)
Record sr : Type := SR { sv : R; sz : bool }.

(** A non-negative zero is what [abs] and an exact cancellation produce. *)
Definition pos (x : R) : sr := SR x false.

(** values/math/signbit.hpp 41-57.  The library's fallback is [arg < 0]; std::signbit also reports the
    sign of a zero.  Both are covered: take [sz = false] for the fallback. *)
Definition signbit (x : sr) : bool :=
  if Rlt_dec (sv x) 0 then true else if Req_EM_T (sv x) 0 then sz x else false.

(** values/math/copysign.hpp 48-67, magnitude non-negative. *)
Definition copysign (m : R) (s : sr) : R := if signbit s then - Rabs m else Rabs m.

(** static_cast<std::intmax_t>: truncation towards zero (fmod.hpp 64). *)
Definition trunc (x : R) : Z := if Rlt_dec x 0 then (- Int_part (- x))%Z else Int_part x.

Definition intmax_bound : R := IZR (2 ^ 63).

(** values/math/fmod.hpp 40-66.  [high] is static_cast<Return>(intmax max) = 2^63 after rounding to
    double, so a quotient of exactly 2^63 passes the test of line 63 and the cast in line 64 is
    undefined; that is the [Undef] outcome. *)
Definition fmod (x : sr) (y : R) : res sr :=
  if Req_EM_T y 0 then Nan
  else if Req_EM_T (sv x) 0 then Ret x
  else
    let q := sv x / y in
    if Rlt_dec q (- intmax_bound) then Throws
    else if Rlt_dec intmax_bound q then Throws
    else if Req_EM_T q intmax_bound then Undef
    else Ret (pos (sv x - IZR (trunc q) * y)).

(** values/math/internal/math_utils.hpp 36-81 ([atan2_impl], finite arguments).  [atan_impl] is the
    mathematical arctangent here; MathModel.v models it and MathProperties.v proves that. *)
Definition atan2 (y x : sr) : R :=
  if Rlt_dec 0 (sv x) then atan (sv y / sv x)
  else if Rlt_dec (sv x) 0 then
    if Rlt_dec 0 (sv y) then atan (sv y / sv x) + PI
    else if Rlt_dec (sv y) 0 then atan (sv y / sv x) - PI
    else copysign PI y
  else
    if Rlt_dec 0 (sv y) then PI / 2
    else if Rlt_dec (sv y) 0 then - PI / 2
    else if signbit x then copysign PI y else 0.

(** values/math/hypot.hpp 71-90 with two arguments, values/math/sqrt.hpp: exact over the reals (the
    algorithms are modelled and proved in MathModel.v). *)
Definition hypot2 (x y : R) : R := sqrt (x * x + y * y).

(** Descriptors: patterns/descriptors/{Dimensions,Distance,Angle,Inclination,Polar,Spherical,Any}.hpp.
    The limits are the template arguments Min, Max, Down. *)
Inductive sorder := DIA | DAI | IDA | ADI | IAD | AID.

Inductive desc : Type :=
| Dim (n : nat)                                   (* Dimensions<n> *)
| Dist                                            (* Distance *)
| Ang (mn mx : R)                                 (* Angle<Min,Max> *)
| Incl (down : R)                                 (* Inclination<Down> *)
| Polar (dfirst : bool) (mn mx : R)               (* Polar<Distance,Angle> / Polar<Angle,Distance> *)
| Spher (o : sorder) (mn mx down : R)             (* Spherical<...> in the six component orders *)
| AnyD (d : desc).                                (* Any holding d *)

(** Angle.hpp 141, 149, Inclination.hpp 117, 120, Distance.hpp 55, 58, Dimensions.hpp, Polar.hpp 74, 77,
    Spherical.hpp 93, 96, Any.hpp (forwarding). *)
Fixpoint dim (d : desc) : nat :=
  match d with
  | Dim n => n | Dist => 1 | Ang _ _ => 1 | Incl _ => 1 | Polar _ _ _ => 2 | Spher _ _ _ _ => 3
  | AnyD d => dim d
  end%nat.

Fixpoint stat_dim (d : desc) : nat :=
  match d with
  | Dim n => n | Dist => 1 | Ang _ _ => 2 | Incl _ => 2 | Polar _ _ _ => 3 | Spher _ _ _ _ => 4
  | AnyD d => stat_dim d
  end%nat.

(** [is_euclidean] of each traits class. *)
Fixpoint is_euclid (d : desc) : bool :=
  match d with Dim _ => true | AnyD d => is_euclid d | _ => false end.

(** get_dimension.hpp, get_stat_dimension.hpp, get_is_euclidean.hpp on a descriptor collection. *)
Definition get_dimension (ds : list desc) : nat := fold_left (fun a d => (a + dim d)%nat) ds 0%nat.
Definition get_stat_dimension (ds : list desc) : nat := fold_left (fun a d => (a + stat_dim d)%nat) ds 0%nat.
Definition get_is_euclidean (ds : list desc) : bool := fold_left (fun a d => a && is_euclid d)%bool ds true.

(** *** Angle.hpp *)

(** Angle.hpp 170-184: phi = a * (2 pi / period); the unscaled branch has the same real value. *)
Definition ang_scale (mn mx a : R) : R := a * (2 * PI / (mx - mn)).

(** Angle.hpp 188-198, Polar.hpp 160-170, Spherical.hpp 223-233: [wrap_phi]. *)
Definition wrap_phi (mn mx phi : R) : R :=
  let period := mx - mn in
  if Rlt_dec phi mn then phi + period
  else if Rle_dec mx phi then phi - period
  else phi.

(** Angle.hpp 228-239, Polar.hpp 213-225 (after the flip): [wrap_phi_mod]. *)
Definition wrap_phi_mod (mn mx phi : R) : res R :=
  let period := mx - mn in
  if Rle_dec mn phi then
    if Rlt_dec phi mx then Ret phi
    else bind (fmod (pos (phi - mn)) period) (fun m =>
           if Rlt_dec (sv m) 0 then Ret (mn + sv m + period) else Ret (mn + sv m))
  else bind (fmod (pos (phi - mn)) period) (fun m =>
         if Rlt_dec (sv m) 0 then Ret (mn + sv m + period) else Ret (mn + sv m)).

(** [fast]: the scalar type is the one for which [min == -pi_v<R> and max == pi_v<R>] can hold
    (Angle.hpp 173, 212; with the default limits, long double).  Then the unscaled branch is used. *)
Definition unscaled (fast : bool) (mn mx : R) : bool :=
  if fast then if Req_EM_T mn (- PI) then if Req_EM_T mx PI then true else false else false else false.

(** Angle.hpp 206-224: [from_stat_space] on (x, y). *)
Definition ang_from (fast : bool) (mn mx : R) (x y : sr) : R :=
  if unscaled fast mn mx then atan2 y x
  else wrap_phi mn mx (atan2 y x * ((mx - mn) / (2 * PI))).

(** *** Inclination.hpp *)

(** Inclination.hpp 149-160. *)
Definition incl_scale (down i : R) : R := i * (PI / down).

(** Inclination.hpp 172-188. *)
Definition incl_from (down : R) (z w : sr) : R :=
  atan2 (pos (Rabs (sv w))) z * (down / PI).

(** Inclination.hpp 192-203: [wrap_theta]. *)
Definition incl_wrap (down theta : R) : res R :=
  let m := bind (fmod (pos (Rabs theta)) (down * 2)) (fun am =>
             if Rlt_dec down (sv am) then Ret (down * 2 - sv am) else Ret (sv am)) in
  if Rle_dec 0 theta then if Rle_dec theta down then Ret theta else m else m.

(** *** Polar.hpp *)

(** Polar.hpp 125-156 (stat coordinates (d, x, y)). *)
Definition polar_to (mn mx : R) (d a : sr) : R * R * R :=
  let phi := ang_scale mn mx (sv a) in
  let s := if signbit d then -1 else 1 in
  (Rabs (sv d), s * cos phi, s * sin phi).

(** Polar.hpp 213-225, 233-245: [wrap]; returns (d, phi). *)
Definition polar_wrap (mn mx : R) (d a : sr) : res (R * R) :=
  let phi := if signbit d then sv a + (mx - mn) * (1 / 2) else sv a in
  bind (wrap_phi_mod mn mx phi) (fun phi' => Ret (Rabs (sv d), phi')).

(** *** Spherical.hpp *)

(** Spherical.hpp 152-199 (stat coordinates (d, x, y, z)). *)
Definition spher_to (mn mx down : R) (d i a : sr) : list R :=
  let theta := incl_scale down (sv i) in
  let phi := ang_scale mn mx (sv a) in
  let s := if signbit d then -1 else 1 in
  [s * sv d; s * (sin theta * cos phi); s * (sin theta * sin phi); s * cos theta].

(** Spherical.hpp 201-288: [from_stat_space]; returns (d, theta, phi). *)
Definition spher_from (mn mx down : R) (d x y z : sr) : R * R * R :=
  let scale := (mx - mn) / (2 * PI) in
  let signed_scale := copysign scale y in
  let hypot_xy := hypot2 (sv x) (sv y) in
  let h := sqrt (hypot_xy * hypot_xy + sv z * sv z) in
  let theta := (down / PI) * (if Req_EM_T h 0 then h else acos (sv z / h)) in
  let phi := signed_scale * (if Req_EM_T hypot_xy 0 then hypot_xy else acos (sv x / hypot_xy)) in
  (sv d, theta, wrap_phi mn mx phi).

(** Spherical.hpp 290-347: [wrap]; returns (d, theta, phi). *)
Definition spher_wrap_theta (down : R) (flip_d : bool) (i_a : R) : R :=
  if Rlt_dec down i_a then (if flip_d then i_a - down else down * 2 - i_a)
  else (if flip_d then down - i_a else i_a).

Definition spher_wrap_phi (mn mx : R) (flip_a : bool) (a : R) : res R :=
  let period := mx - mn in
  let a' := if flip_a then a + period * (1 / 2) else a in
  bind (fmod (pos (a' - mn)) period) (fun ar =>
    Ret ((if Rlt_dec (sv ar) 0 then sv ar + period else sv ar) + mn)).

Definition spher_wrap (mn mx down : R) (d i a : sr) : res (R * R * R) :=
  let flip_d := signbit d in
  bind (fmod i (down * 2)) (fun im =>
    let iabs := Rabs (sv im) in
    let high_i := if Rlt_dec down iabs then true else false in
    let flip_i := xorb (signbit im) high_i in
    let i_new := spher_wrap_theta down flip_d iabs in
    let flip_a := xorb flip_i flip_d in
    bind (spher_wrap_phi mn mx flip_a (sv a)) (fun a_new =>
      Ret (Rabs (sv d), i_new, a_new))).

(** Spherical.hpp 155-157, 325-327 with the index arguments of 359-411: reading (d, i, a) from the data;
    and [make_ordered_range], 236-251: writing them back. *)
Definition sget {A} (o : sorder) (v : list A) : option (A * A * A) :=
  match v with
  | [p; q; r] =>
      Some (match o with
            | DIA => (p, q, r) | DAI => (p, r, q) | IDA => (q, p, r)
            | ADI => (q, r, p) | IAD => (r, p, q) | AID => (r, q, p)
            end)
  | _ => None
  end.

Definition sput {A} (o : sorder) (d i a : A) : list A :=
  match o with
  | DIA => [d; i; a] | DAI => [d; a; i] | IDA => [i; d; a]
  | ADI => [a; d; i] | IAD => [i; a; d] | AID => [a; i; d]
  end.

(** Polar.hpp 128-129, 236-237 with the index arguments of 257-268; [make_ordered_range] 173-180. *)
Definition pget {A} (dfirst : bool) (v : list A) : option (A * A) :=
  match v with [p; q] => Some (if dfirst then (p, q) else (q, p)) | _ => None end.
Definition pput {A} (dfirst : bool) (d a : A) : list A := if dfirst then [d; a] else [a; d].

(** collections::views::generate(g, n) applied to a getter: the first [n] values; get_element past the end
    is undefined.  Used by Any.hpp 96-133, 205-232. *)
Definition get_element {A} (v : list A) (i : nat) : res A :=
  match nth_error v i with Some x => Ret x | None => Undef end.

Fixpoint generate {A} (g : nat -> res A) (n : nat) : res (list A) :=
  match n with
  | O => Ret []
  | S n' => bind (g O) (fun x => bind (generate (fun i => g (S i)) n') (fun l => Ret (x :: l)))
  end.

(** Any.hpp 96-107 with 205-212 (likewise 109-120/215-222 and 122-133/225-232): the data are read through a
    getter, the held descriptor's function is applied to generate(getter, n_in), and its result is read back
    through generate(getter, n_out); a held Euclidean descriptor hands the getter through unchanged. *)
Definition any_call (euclid : bool) (f : list sr -> res (list R)) (n_in n_out : nat) (v : list sr) : res (list R) :=
  let g := get_element v in
  if euclid then generate (fun i => bind (g i) (fun x => Ret (sv x))) n_out
  else bind (generate g n_in) (fun data => bind (f data) (fun o => generate (get_element o) n_out)).

(** *** The API functions on one descriptor *)

(** patterns/functions/to_stat_space.hpp 44-62 and the traits functions. *)
Fixpoint to_stat1 (d : desc) (v : list sr) : res (list R) :=
  match d with
  | Dim n => if Nat.eqb (length v) n then Ret (map sv v) else Undef
  | Dist => match v with [x] => Ret [Rabs (sv x)] | _ => Undef end
  | Ang mn mx =>
      match v with
      | [a] => Ret [cos (ang_scale mn mx (sv a)); sin (ang_scale mn mx (sv a))]
      | _ => Undef
      end
  | Incl down =>
      match v with
      | [i] => Ret [cos (incl_scale down (sv i)); Rabs (sin (incl_scale down (sv i)))]
      | _ => Undef
      end
  | Polar df mn mx =>
      match pget df v with
      | Some (d, a) =>
          match polar_to mn mx d a with
          | (d', x, y) => Ret (if df then [d'; x; y] else [x; y; d'])
          end
      | None => Undef
      end
  | Spher o mn mx down =>
      match sget o v with
      | Some (d, i, a) => Ret (spher_to mn mx down d i a)
      | None => Undef
      end
  | AnyD d => any_call (is_euclid d) (to_stat1 d) (dim d) (stat_dim d) v
  end.

(** patterns/functions/from_stat_space.hpp 44-62 and the traits functions. *)
Fixpoint from_stat1 (fast : bool) (d : desc) (v : list sr) : res (list R) :=
  match d with
  | Dim n => if Nat.eqb (length v) n then Ret (map sv v) else Undef
  | Dist => match v with [x] => Ret [sv x] | _ => Undef end
  | Ang mn mx => match v with [x; y] => Ret [ang_from fast mn mx x y] | _ => Undef end
  | Incl down => match v with [z; w] => Ret [incl_from down z w] | _ => Undef end
  | Polar df mn mx =>
      match v with
      | [p; q; r] =>
          match (if df then (p, q, r) else (r, p, q)) with
          | (d, x, y) => Ret (pput df (sv d) (ang_from fast mn mx x y))
          end
      | _ => Undef
      end
  | Spher o mn mx down =>
      match v with
      | [d; x; y; z] =>
          match spher_from mn mx down d x y z with (d', i', a') => Ret (sput o d' i' a') end
      | _ => Undef
      end
  | AnyD d => any_call (is_euclid d) (from_stat1 fast d) (stat_dim d) (dim d) v
  end.

(** patterns/functions/wrap.hpp 59-88 and the traits functions (every modelled descriptor defines
    Traits::wrap except Dimensions, which is Euclidean). *)
Fixpoint wrap1 (d : desc) (v : list sr) : res (list R) :=
  match d with
  | Dim n => if Nat.eqb (length v) n then Ret (map sv v) else Undef
  | Dist => match v with [x] => Ret [Rabs (sv x)] | _ => Undef end
  | Ang mn mx => match v with [a] => bind (wrap_phi_mod mn mx (sv a)) (fun w => Ret [w]) | _ => Undef end
  | Incl down => match v with [i] => bind (incl_wrap down (sv i)) (fun w => Ret [w]) | _ => Undef end
  | Polar df mn mx =>
      match pget df v with
      | Some (d, a) => bind (polar_wrap mn mx d a) (fun p => Ret (pput df (fst p) (snd p)))
      | None => Undef
      end
  | Spher o mn mx down =>
      match sget o v with
      | Some (d, i, a) =>
          bind (spher_wrap mn mx down d i a) (fun p => match p with (d', i', a') => Ret (sput o d' i' a') end)
      | None => Undef
      end
  | AnyD d => any_call (is_euclid d) (wrap1 d) (dim d) (dim d) v
  end.

(** *** The API functions on a descriptor collection *)

(** collections/views/slice.hpp: [slice(data, offset, extent)]; an extent reaching past the end is
    undefined. *)
Definition slice {A} (v : list A) (i n : nat) : res (list A) :=
  if Nat.leb (i + n) (length v) then Ret (firstn n (skipn i v)) else Undef.

(** The traversal shared by to_stat_space.hpp 65-125, from_stat_space.hpp 65-129 and wrap.hpp 91-156:
    for each descriptor, slice the data at the running offset, convert, append, advance the offset. *)
Fixpoint traverse (f : desc -> list sr -> res (list R)) (size : desc -> nat)
    (ds : list desc) (v : list sr) (i : nat) (out : list R) : res (list R) :=
  match ds with
  | [] => Ret out
  | d :: ds' =>
      bind (slice v i (size d)) (fun s =>
      bind (f d s) (fun o =>
      traverse f size ds' v (i + size d) (out ++ o)))
  end.

(** The static_assert of to_stat_space.hpp 104, from_stat_space.hpp 104, wrap.hpp 131 (also the
    precondition in the dynamic case). *)
Definition checked (n : nat) (v : list sr) (m : res (list R)) : res (list R) :=
  if Nat.eqb (length v) n then m else Undef.

Definition to_stat (ds : list desc) (v : list sr) : res (list R) :=
  checked (get_dimension ds) v (traverse to_stat1 dim ds v 0 []).

Definition from_stat (fast : bool) (ds : list desc) (v : list sr) : res (list R) :=
  checked (get_stat_dimension ds) v (traverse (from_stat1 fast) stat_dim ds v 0 []).

Definition wrap (ds : list desc) (v : list sr) : res (list R) :=
  checked (get_dimension ds) v (traverse wrap1 dim ds v 0 []).

(** from_stat_space.hpp 107-124 when compiled with __cpp_lib_containers_ranges >= 202002L: the dynamic
    overload calls to_stat_space on line 116. *)
Definition from_stat_dynamic_cxx23 (ds : list desc) (v : list sr) : res (list R) :=
  checked (get_stat_dimension ds) v (traverse to_stat1 stat_dim ds v 0 []).

(** Angle.hpp 44-52, 40, Inclination.hpp static asserts: Min <= 0 < Max, 0 < Down. *)
Fixpoint valid (d : desc) : Prop :=
  match d with
  | Dim _ => True
  | Dist => True
  | Ang mn mx => mn <= 0 /\ 0 < mx
  | Incl down => 0 < down
  | Polar _ mn mx => mn <= 0 /\ 0 < mx
  | Spher _ mn mx down => mn <= 0 /\ 0 < mx /\ 0 < down
  | AnyD d => valid d
  end.
