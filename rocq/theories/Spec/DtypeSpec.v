(** Array types with finitely many values, and the numbers they can hold. *)
From Coq Require Import ZArith.
Open Scope Z_scope.

(** numpy's bool; uint8, uint16, ... ([DUInt 8], [DUInt 16], ...); int8, int16, ... ([DInt 7], [DInt 15], ...: the bits beside the sign). *)
Inductive dtype := DBool | DUInt (bits : nat) | DInt (bits : nat).
Definition representable (t : dtype) (z : Z) : Prop :=
  match t with
  | DBool => 0 <= z <= 1
  | DUInt k => 0 <= z < 2 ^ Z.of_nat k
  | DInt k => - 2 ^ Z.of_nat k <= z < 2 ^ Z.of_nat k
  end.

(** By how much a sum of two representable numbers exceeds what is stored of it: an unsigned sum that does not fit loses 2^bits, a
    signed one gains or loses 2^(bits+1), and 1 + 1 = 1 for Booleans. *)
Definition lost (t : dtype) (z : Z) : Z :=
  match t with
  | DBool => if Z.ltb 1 z then 1 else 0
  | DUInt k => if Z.leb (2 ^ Z.of_nat k) z then 2 ^ Z.of_nat k else 0
  | DInt k => if Z.leb (2 ^ Z.of_nat k) z then 2 * 2 ^ Z.of_nat k
              else if Z.ltb z (- 2 ^ Z.of_nat k) then - (2 * 2 ^ Z.of_nat k) else 0
  end.
