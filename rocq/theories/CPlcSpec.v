(* What a caller expects of the PLC they built: everything is read off the list of their calls. *)
From Verif Require Import Base CPlcModel.

(* the calls after the last Clear *)
Definition since (cs : list call) : list call :=
  fold_left (fun acc c => match c with Clear => [] | _ => acc ++ [c] end) cs [].

Definition facet_count (cs : list call) : nat :=
  length (filter (fun c => match c with AddFacet => true | _ => false end) (since cs)).
Definition nodes_of (cs : list call) (f : Z) : list Z :=
  flat_map (fun c => match c with AddFacetNode g n => if Z.eqb g f then [n] else [] | _ => [] end) (since cs).
Definition hole_count (cs : list call) : nat :=
  length (filter (fun c => match c with AddHole => true | _ => false end) (since cs)).
Definition hole_facet_count (cs : list call) (k : Z) : nat :=
  length (filter (fun c => match c with AddHoleFacet j => Z.eqb j k | _ => false end) (since cs)).
Definition hole_nodes_of (cs : list call) (k f : Z) : list Z :=
  flat_map (fun c => match c with AddHoleFacetNode j g n => if Z.eqb j k && Z.eqb g f then [n] else [] | _ => [] end) (since cs).

Definition isInt (z : Z) : Prop := (- 2 ^ 31 <= z < 2 ^ 31)%Z.
Definition below (i : Z) (n : nat) : Prop := (0 <= i < Z.of_nat n)%Z.
(* the call passes ints *)
Definition Ints (c : call) : Prop :=
  match c with
  | AddFacetNode f n => isInt f /\ isInt n
  | AddHoleFacet k => isInt k
  | AddHoleFacetNode k f n => isInt k /\ isInt f /\ isInt n
  | _ => True
  end.
(* after the calls cs, the call c names a facet or hole that was added *)
Definition Names (cs : list call) (c : call) : Prop :=
  match c with
  | AddFacetNode f _ => below f (facet_count cs)
  | AddHoleFacet k => below k (hole_count cs)
  | AddHoleFacetNode k f _ => below k (hole_count cs) /\ below f (hole_facet_count cs k)
  | _ => True
  end.
Inductive Legal : list call -> Prop :=
| Legal_nil : Legal []
| Legal_snoc cs c : Legal cs -> Names cs c -> Legal (cs ++ [c]).
