(* What std::sort, std::set and std::map ask of a comparator (strict weak ordering), and what an
   order on values is. *)
From Verif Require Import Base.

Record StrictWeak {A} (lt : A -> A -> bool) : Prop := {
  sw_irreflexive : forall a, lt a a = false;
  sw_transitive : forall a b c, lt a b = true -> lt b c = true -> lt a c = true;
  sw_equivalent : forall a b c, lt a b = false -> lt b a = false -> lt b c = false -> lt c b = false -> lt a c = false /\ lt c a = false }.
(* a strict weak ordering in which only equal values are not ordered *)
Definition OrderOf {A} (eq : A -> A -> Prop) (lt : A -> A -> bool) : Prop :=
  StrictWeak lt /\ forall a b, lt a b = false /\ lt b a = false <-> eq a b.
