(** * Model: the comparison of numbers up to a tolerance.

    File: /repo/OpenKalman/values/functions/internal/near.hpp.  Operations and outcomes as in FloatModel.v; both arguments and
    the tolerance have the same type.  Fixed (compile-time) arguments, l.48-53 and l.88-96, give the same results. *)
From Coq Require Import ZArith Bool.
From Flocq Require Import Core.Zaux Core.FLX IEEE754.BinarySingleNaN.
From Verif Require Import FloatModel.
Local Open Scope Z_scope.

Section Format.
Context {prec emax : Z} {Hp : Prec_gt_0 prec} {Hx : Prec_lt_emax prec emax}.
Notation fl := (binary_float prec emax).

(** std::numeric_limits<T>::epsilon(): the distance from 1 to the next number. *)
Definition epsilon : fl := of_me 1 (1 - prec).

(** ** near.hpp l.105-111: a tolerance is given; real numbers. *)
Definition near_err (x y err : fl) : bool :=
  let diff := fsub x y in fle (Bopp err) diff && fle diff err.

(** ** near.hpp l.61-67: no tolerance is given; [k] is epsilon_factor, by default 2. *)
Definition near_eps (k : Z) (x y : fl) : bool :=
  let diff := fsub x y in let ep := fmul (of_Z k) epsilon in fle (Bopp ep) diff && fle diff ep.

(** ** near.hpp l.97-104: complex numbers, as pairs, with a complex tolerance. *)
Definition near_err_c (x y err : fl * fl) : bool :=
  let dr := fsub (fst y) (fst x) in let di := fsub (snd y) (snd x) in
  fle (fadd (fmul dr dr) (fmul di di)) (fadd (fmul (fst err) (fst err)) (fmul (snd err) (snd err))).

(** ** near.hpp l.54-60: complex numbers without a tolerance. *)
Definition near_eps_c (k : Z) (x y : fl * fl) : bool := near_eps k (fst x) (fst y) && near_eps k (snd x) (snd y).

(** ** values/concepts/fixed_value_compares_with.hpp l.28-46: three-way comparison with [n], where [k] is epsilon_factor; no result
    stands for unordered. *)
Definition compare_near (k : Z) (t n : fl) : option comparison :=
  if k =? 0 then Bcompare t n else if near_eps k t n then Some Eq else Bcompare t n.

End Format.

(** ** near.hpp l.105-111 for arguments of type int (32 bits).  Overflow of the difference or of the negation is undefined. *)
Definition near_int (x y err : Z) : fres bool :=
  let diff := x - y in
  if (diff <? - 2 ^ 31) || (2 ^ 31 <=? diff) then FUB
  else if err =? - 2 ^ 31 then FUB
  else FVal ((- err <=? diff) && (diff <=? err)).

(** ** near.hpp l.105-111 for arguments of type unsigned int: the difference and the negation are taken modulo 2^32. *)
Definition near_unsigned (x y err : Z) : bool :=
  let diff := (x - y) mod 2 ^ 32 in ((- err) mod 2 ^ 32 <=? diff) && (diff <=? err).
