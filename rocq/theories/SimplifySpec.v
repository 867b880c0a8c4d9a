(* What simplifying the boundary of a planar region should give. *)
From Verif Require Import Base Plane PLCSpec WithinSpec HullSpec.
From Coq Require Import QArith Permutation Sorted.
Local Open Scope nat_scope.

(* the position of point i of a flat array *)
Definition pos2 (points : list Q) (i : nat) : p2 := (nth (2 * i) points 0, nth (2 * i + 1) points 0)%Q.

(* vs goes once around the boundary the facets make.  Points related by same count as one
   point, for which its first occurrence stands.  The facets may be given in any order and in
   either direction. *)
Record Boundary (n : nat) (same : nat -> nat -> Prop) (facets : list (list nat)) (vs : list nat) : Prop := {
  bd_three : 3 <= length vs;
  bd_once : NoDup vs;
  bd_range : forall v, In v vs -> v < n;
  bd_first : forall v j, In v vs -> j < v -> ~ same j v;
  bd_facets : exists fs, Permutation fs facets /\ Forall2 (fun f e => exists a b, f = [a; b] /\ a < n /\ b < n /\
      ((same a (fst e) /\ same b (snd e)) \/ (same a (snd e) /\ same b (fst e)))) fs (ring vs) }.

(* any three of the points are in line or clearly not, and not all are in line *)
Record Clear (tol : Q) (P : nat -> p2) (vs : list nat) : Prop := {
  cl_far : forall a b, In a vs -> In b vs -> a <> b -> (tol <= dist2 (P a) (P b))%Q;
  cl_line : forall a b c, In a vs -> In b vs -> In c vs -> a <> b -> a <> c -> b <> c -> (orient (P a) (P b) (P c) == 0)%Q \/ Bent tol (P a) (P b) (P c);
  cl_area : exists a b c, In a vs /\ In b vs /\ In c vs /\ ~ (orient (P a) (P b) (P c) == 0)%Q }.
(* three corners following each other *)
Definition Successive (vs : list nat) (a b c : nat) : Prop :=
  exists i, nth_error vs i = Some a /\ nth_error vs ((i + 1) mod length vs) = Some b /\ nth_error vs ((i + 2) mod length vs) = Some c.
(* two corners joined by an edge *)
Definition Adjacent (vs : list nat) (a b : nat) : Prop := In (a, b) (ring vs) \/ In (b, a) (ring vs).
(* the boundary never runs back along itself: two edges that meet in b and are in line leave b
   in opposite directions *)
Definition NoSpike (P : nat -> p2) (vs : list nat) : Prop :=
  forall a b c, Adjacent vs a b -> Adjacent vs b c -> a <> c -> (orient (P a) (P b) (P c) == 0)%Q ->
    (0 < (fst (P b) - fst (P a)) * (fst (P c) - fst (P b)) + (snd (P b) - snd (P a)) * (snd (P c) - snd (P b)))%Q.

(* the points ds lie, in this order, on the segment from c to c' *)
Definition OnSide (P : nat -> p2) (c : nat) (ds : list nat) (c' : nat) : Prop :=
  exists ts, StronglySorted Qlt ts /\ Forall2 (fun d t => (0 < t < 1)%Q /\
    (fst (P d) == fst (along (P c) (P c') t))%Q /\ (snd (P d) == snd (along (P c) (P c') t))%Q) ds ts.
(* cs keeps some corners of us, in order, and drops only those on the segments between them *)
Definition Thinned (P : nat -> p2) (us cs : list nat) : Prop :=
  exists blocks : list (nat * list nat), us = flat_map (fun b => fst b :: snd b) blocks /\ cs = map fst blocks /\
    forall b b', In (b, b') (ring blocks) -> OnSide P (fst b) (snd b) (fst b').
(* the facets join the corners cs in order; the corners, and no other points, are in the result *)
Definition Numbered (points : list Q) (cs : list nat) (points' : list Q) (facets' : list (list nat)) : Prop :=
  exists ns, Permutation ns (seq 0 (length cs)) /\ length points' = 2 * length cs /\
    facets' = map (fun e => [fst e; snd e]) (ring ns) /\ Forall2 (fun c k => pos2 points' k = pos2 points c) cs ns.
Definition Simplified (n : nat) (same : nat -> nat -> Prop) (facets : list (list nat)) (points : list Q) (points' : list Q) (facets' : list (list nat)) : Prop :=
  exists us cs, Boundary n same facets us /\ Thinned (pos2 points) us cs /\ Numbered points cs points' facets' /\
    forall a b c, Successive cs a b c -> ~ (orient (pos2 points a) (pos2 points b) (pos2 points c) == 0)%Q.
