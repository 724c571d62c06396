(** Specification vocabulary for means with angular coordinates. *)
From Coq Require Import Reals List ZArith.
From Verif Require Import PatModel PatSpec MeanModel.
Import ListNotations.
Local Open Scope R_scope.

(** Patterns of numbers and angles only, and what each coordinate is: a number, or an angle with its limits. *)
Fixpoint kinds1 (d : desc) : option (list (option (R * R))) :=
  match d with
  | Dim n => Some (repeat None n)
  | Ang mn mx => Some [Some (mn, mx)]
  | AnyD d => kinds1 d
  | _ => None
  end.
Fixpoint kinds (ds : list desc) : option (list (option (R * R))) :=
  match ds with
  | [] => Some []
  | d :: ds' => match kinds1 d, kinds ds' with Some a, Some b => Some (a ++ b) | _, _ => None end
  end.

(** The same number, or angles that differ by whole turns. *)
Definition same (k : option (R * R)) (a b : R) : Prop :=
  match k with None => a = b | Some (mn, mx) => exists t : Z, b = a + IZR t * (mx - mn) end.
Inductive same_column : list (option (R * R)) -> list R -> list R -> Prop :=
| same_nil : same_column [] [] []
| same_cons k ks a v b w : same k a b -> same_column ks v w -> same_column (k :: ks) (a :: v) (b :: w).

(** Every column lies in the primary range. *)
Definition in_range (ds : list desc) (m : matrix) : Prop := Forall (each in_range1 ds) m.

(** ** The same history without wrapping *)
Definition plain_step (e : state) (op : operation) : state :=
  let on2 x y k := match e x, e y with Some a, Some b => update e x (k a b) | _, _ => e end in
  let on x k := match e x with Some a => update e x (k a) | _ => e end in
  match op with
  | FromMatrix x m _ => update e x m
  | FromMean x y => match e y with Some m => update e x m | None => e end
  | FromStat _ _ _ => e
  | PlusMean x y _ => on2 x y (map2 (map2 Rplus))
  | PlusMatrix x m _ => on x (fun a => map2 (map2 Rplus) a m)
  | MinusMean x y _ => on2 x y (map2 (map2 Rminus))
  | MinusMatrix x m _ => on x (fun a => map2 (map2 Rminus) a m)
  | Times x s _ => on x (map (map (fun v => v * s)))
  | Divide x s _ => on x (map (map (fun v => v * / s)))
  | Sum x y y' _ => match e y, e y' with Some a, Some b => update e x (map2 (map2 Rplus) a b) | _, _ => e end
  | Scaled x s y _ => match e y with Some a => update e x (map (map (fun v => v * s)) a) | None => e end
  end.
Definition plain_run (ops : list operation) : state := fold_left plain_step ops (fun _ => None).

(** Scale factors are whole numbers; nothing comes from statistical space. *)
Definition whole (op : operation) : Prop :=
  match op with
  | FromStat _ _ _ => False
  | Times _ s _ | Scaled _ s _ _ => exists k : Z, s = IZR k
  | Divide _ s _ => exists k : Z, / s = IZR k
  | _ => True
  end.

(** Directions in the arguments from statistical space are not zero. *)
Definition directed (ds : list desc) (op : operation) : Prop :=
  match op with FromStat _ m _ => Forall (fun c => exists t, each2 normalised1 ds c t) m | _ => True end.

(** ** Angles as directions *)
Fixpoint resultant (f : R -> R) (mn mx : R) (w values : list R) : R :=
  match w, values with
  | a :: w', v :: values' => a * f (turn mn mx v) + resultant f mn mx w' values'
  | _, _ => 0
  end.

Definition row (values : list R) : matrix := map (fun v => [v]) values.

Fixpoint sum_squares (w values : list R) (y : R) : R :=
  match w, values with a :: w', v :: values' => a * ((v - y) * (v - y)) + sum_squares w' values' y | _, _ => 0 end.

(** No zero is negative. *)
Definition no : signs := fun _ _ _ => false.
(** The gain 1/2. *)
Definition half : list R -> list R := map (fun v => / 2 * v).
