(* What it means for concurrent ranks to finish with given results whatever the schedule. *)
From Verif Require Import Base MpiModel.

(* ranks 0 .. n-1 run ps; every execution can be continued until all have returned, takes at most
   a fixed number of steps, and ends with rank r returning a r *)
Definition Finishes {M A} (n : nat) (ps : nat -> prog M A) (a : nat -> res A) : Prop :=
  exists total, forall m e, steps m (start ps) e ->
    m <= total /\
    (m < total -> exists e', step e e') /\
    (m = total -> forall r, r < n -> proc e r = Ret (a r)).
