(** What a floating-point rounding does.  [F]: the representable numbers; [rnd]: the rounding; [u]: the unit roundoff.  No overflow;
    gradual underflow is allowed (sums are then still accurate). *)
From Coq Require Import Reals.
Open Scope R_scope.
Record rounding (F : R -> Prop) (rnd : R -> R) (u : R) : Prop := {
  r_zero : F 0;
  r_opp : forall x, F x -> F (- x);
  r_in : forall x, F (rnd x);
  r_id : forall x, F x -> rnd x = x;
  r_mono : forall x y, x <= y -> rnd x <= rnd y;
  r_unit : 0 <= u;
  r_plus : forall x y, F x -> F y -> Rabs (rnd (x + y) - (x + y)) <= u * Rabs (x + y)
}.
