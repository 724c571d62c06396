(** * Specification vocabulary for the pattern properties.

    Independent of the helper functions of PatModel.v: only the descriptor syntax, the outcome type and
    the API functions are used from there. *)
From Coq Require Import Reals List ZArith.
From Verif Require Import PatModel.
Import ListNotations.
Local Open Scope R_scope.

(** A spherical coordinate triple laid out in the order its descriptor declares
    (D = distance, I = inclination, A = angle). *)
Definition sph {A} (o : sorder) (r i a : A) : list A :=
  match o with
  | DIA => [r; i; a] | DAI => [r; a; i] | IDA => [i; r; a]
  | ADI => [a; r; i] | IAD => [i; a; r] | AID => [a; i; r]
  end.

Definition pol {A} (distance_first : bool) (r a : A) : list A :=
  if distance_first then [r; a] else [a; r].

(** [w] lies in the primary range of descriptor [d]. *)
Fixpoint in_range1 (d : desc) (w : list R) : Prop :=
  match d with
  | Dim n => length w = n
  | Dist => exists r, w = [r] /\ 0 <= r
  | Ang mn mx => exists a, w = [a] /\ mn <= a < mx
  | Incl down => exists i, w = [i] /\ 0 <= i <= down
  | Polar df mn mx => exists r a, w = pol df r a /\ 0 <= r /\ mn <= a < mx
  | Spher o mn mx down => exists r i a, w = sph o r i a /\ 0 <= r /\ 0 <= i <= down /\ mn <= a < mx
  | AnyD d => in_range1 d w
  end.

(** A property of one descriptor's components, lifted to a collection: the vector is the concatenation of
    one block per descriptor and each block has the property. *)
Inductive each {A} (P : desc -> list A -> Prop) : list desc -> list A -> Prop :=
| each_nil : each P [] []
| each_cons d ds w ws : P d w -> each P ds ws -> each P (d :: ds) (w ++ ws).

Inductive each2 {A B} (P : desc -> list A -> list B -> Prop) : list desc -> list A -> list B -> Prop :=
| each2_nil : each2 P [] [] []
| each2_cons d ds v vs w ws :
    P d v w -> each2 P ds vs ws -> each2 P (d :: ds) (v ++ vs) (w ++ ws).

(** Two coordinates of one descriptor agree, except that the azimuth of a spherical coordinate is
    irrelevant at a pole (inclination 0 or [down]). *)
Fixpoint same_coord1 (d : desc) (v w : list R) : Prop :=
  match d with
  | Spher o mn mx down =>
      v = w \/
      exists r i a a', v = sph o r i a /\ w = sph o r i a' /\ (i = 0 \/ i = down)
  | AnyD d => same_coord1 d v w
  | _ => v = w
  end.

Definition same_coords (ds : list desc) (v w : list R) : Prop :=
  each2 (fun d v w => length v = dim d /\ length w = dim d /\ same_coord1 d v w) ds v w.

(** Statistical-space points on the manifold: unit direction, non-negative distance. *)
Fixpoint on_manifold1 (d : desc) (s : list R) : Prop :=
  match d with
  | Dim n => length s = n
  | Dist => exists r, s = [r] /\ 0 <= r
  | Ang _ _ => exists x y, s = [x; y] /\ x * x + y * y = 1
  | Incl _ => exists z w, s = [z; w] /\ z * z + w * w = 1 /\ 0 <= w
  | Polar df _ _ =>
      exists r x y, s = (if df then [r; x; y] else [x; y; r]) /\ 0 <= r /\ x * x + y * y = 1
  | Spher _ _ _ _ => exists r x y z, s = [r; x; y; z] /\ 0 <= r /\ x * x + y * y + z * z = 1
  | AnyD d => on_manifold1 d s
  end.

(** [t] is [s] with its direction normalised (same ray, unit length), distances unchanged. *)
Fixpoint normalised1 (d : desc) (s t : list R) : Prop :=
  match d with
  | Ang _ _ => exists x y k, 0 < k /\ s = [k * x; k * y] /\ t = [x; y] /\ x * x + y * y = 1
  | Incl _ => exists z w k, 0 < k /\ 0 <= w /\ s = [k * z; k * w] /\ t = [z; w] /\ z * z + w * w = 1
  | Polar df _ _ =>
      exists r x y k, 0 < k /\ 0 <= r /\ x * x + y * y = 1 /\
        s = (if df then [r; k * x; k * y] else [k * x; k * y; r]) /\
        t = (if df then [r; x; y] else [x; y; r])
  | Spher _ _ _ _ =>
      exists r x y z k, 0 < k /\ 0 <= r /\ x * x + y * y + z * z = 1 /\
        s = [r; k * x; k * y; k * z] /\ t = [r; x; y; z]
  | Dist => exists r, 0 <= r /\ s = [r] /\ t = [r]
  | Dim n => length s = n /\ t = s
  | AnyD d => normalised1 d s t
  end.

(** The position in ordinary space denoted by a coordinate, written with the trigonometric definition of
    the coordinate system: a signed distance [r] along the direction given by the angles. *)
Definition turn (mn mx a : R) : R := 2 * PI * a / (mx - mn).    (* radians of an angle *)
Definition tilt (down i : R) : R := PI * i / down.              (* radians of an inclination *)

(** [s] (a stat vector) places the coordinate [v] where it is in ordinary space. *)
Fixpoint encodes1 (d : desc) (v s : list R) : Prop :=
  match d with
  | Dim n => s = v
  | Dist => exists r r', v = [r] /\ s = [r'] /\ 0 <= r' /\ (r' = r \/ r' = - r)
  | Ang mn mx => exists a, v = [a] /\ s = [cos (turn mn mx a); sin (turn mn mx a)]
  | Incl down =>
      exists i z w, v = [i] /\ s = [z; w] /\ 0 <= w /\ z = cos (tilt down i) /\
        (w = sin (tilt down i) \/ w = - sin (tilt down i))
  | Polar df mn mx =>
      exists r a r' x y, v = pol df r a /\ s = (if df then [r'; x; y] else [x; y; r']) /\
        0 <= r' /\ x * x + y * y = 1 /\
        r' * x = r * cos (turn mn mx a) /\ r' * y = r * sin (turn mn mx a)
  | Spher o mn mx down =>
      exists r i a r' x y z, v = sph o r i a /\ s = [r'; x; y; z] /\
        0 <= r' /\ x * x + y * y + z * z = 1 /\
        r' * x = r * (sin (tilt down i) * cos (turn mn mx a)) /\
        r' * y = r * (sin (tilt down i) * sin (turn mn mx a)) /\
        r' * z = r * cos (tilt down i)
  | AnyD d => encodes1 d v s
  end.

(** Sign-bit coherence of an input: nothing is required (the sign bit only matters for zeros). *)
Definition values (v : list sr) : list R := map sv v.

(** [strip d] is [d] without any type erasure. *)
Fixpoint strip (d : desc) : desc := match d with AnyD d => strip d | _ => d end.

(** No angle (alone or in polar coordinates) is declared with the limits -pi, pi. *)
Fixpoint limits_not_pi (d : desc) : Prop :=
  match d with
  | Ang mn mx => ~ (mn = - PI /\ mx = PI)
  | Polar _ mn mx => ~ (mn = - PI /\ mx = PI)
  | AnyD d => limits_not_pi d
  | _ => True
  end.

(** Like [in_range1] but with the upper limit of an angle included. *)
Fixpoint in_closed_range1 (d : desc) (w : list R) : Prop :=
  match d with
  | Ang mn mx => exists a, w = [a] /\ mn <= a <= mx
  | Polar df mn mx => exists r a, w = pol df r a /\ 0 <= r /\ mn <= a <= mx
  | AnyD d => in_closed_range1 d w
  | _ => in_range1 d w
  end.

(** Number of whole periods an angle is away from its lower limit (not rounded). *)
Definition turns (mn mx a : R) : R := (a - mn) / (mx - mn).
Definition int64_bound : R := IZR 9223372036854775808.   (* 2^63 *)
