(* What simplifying the surface of a solid should give. *)
From Coq Require Import QArith Qabs Permutation.
From Verif Require Import Base Plane PLCSpec.
Local Open Scope nat_scope.

(* ---- vectors ---- *)
Definition vdot (a b : p3) : Q := (X3 a * X3 b + Y3 a * Y3 b + Z3 a * Z3 b)%Q.
Definition vcross (a b : p3) : p3 :=
  (Y3 a * Z3 b - Z3 a * Y3 b, Z3 a * X3 b - X3 a * Z3 b, X3 a * Y3 b - Y3 a * X3 b)%Q.
Definition vlen2 (a : p3) : Q := vdot a a.
(* the position of point i of a flat array *)
Definition pos3 (points : list Q) (i : nat) : p3 :=
  (nth (3 * i) points 0, nth (3 * i + 1) points 0, nth (3 * i + 2) points 0)%Q.

(* ---- what the tolerance means ---- *)
(* closer than tol *)
Definition Close (tol : Q) (a b : p3) : Prop := (0 < tol /\ vlen2 (sub3 b a) < tol * tol)%Q.
(* in line: b or c hardly differs from a, or the cosine of the angle between them at a is more
   than 1 - tol or less than tol - 1 *)
Definition InLine3 (tol : Q) (a b c : p3) : Prop :=
  let u := sub3 b a in let v := sub3 c a in
  (vlen2 u < tol \/ vlen2 v < tol \/ 1 < tol \/
   (0 < tol /\ (1 - tol) * (1 - tol) * (vlen2 u * vlen2 v) < vdot u v * vdot u v))%Q.
(* the product of the lengths of n and m differs from n.m by less than tol: with tol small, both
   point in the same direction.  (s is the square of that product.) *)
Definition Facing (tol : Q) (n m : p3) : Prop :=
  let s := (vlen2 n * vlen2 m)%Q in
  (0 < vdot n m + tol /\ s < (vdot n m + tol) * (vdot n m + tol) /\
   (vdot n m < tol \/ (vdot n m - tol) * (vdot n m - tol) < s))%Q.
(* at b, the way from a over b to c turns: the product of the lengths of the two sides exceeds
   the absolute value of their dot product by more than tol *)
Definition Bends (tol : Q) (a b c : p3) : Prop :=
  let u := sub3 b a in let v := sub3 c b in
  (tol + Qabs (vdot u v) < 0 \/ (tol + Qabs (vdot u v)) * (tol + Qabs (vdot u v)) < vlen2 u * vlen2 v)%Q.

(* ---- facets ---- *)
(* the normal of a facet, from its first point, the first one after it that is apart from it and
   the first one after these that is not in line with them *)
Definition HasNormal (points : list Q) (tol : Q) (f : list nat) (n : p3) : Prop :=
  exists a l1 b l2 c l3, f = a :: l1 ++ b :: l2 ++ c :: l3 /\
    let P := pos3 points in
    (forall x, In x l1 -> Close tol (P a) (P x)) /\ ~ Close tol (P a) (P b) /\
    (forall x, In x l2 -> InLine3 tol (P a) (P b) (P x)) /\ ~ InLine3 tol (P a) (P b) (P c) /\
    n = vcross (sub3 (P b) (P a)) (sub3 (P c) (P a)).
(* a facet without area *)
Definition Degenerate (points : list Q) (tol : Q) (f : list nat) : Prop := ~ exists n, HasNormal points tol f n.

(* rep sends every point to the first one it is the same as *)
Definition FirstSame (n : nat) (same : nat -> nat -> Prop) (rep : nat -> nat) : Prop :=
  forall i, i < n -> rep i <= i /\ same (rep i) i /\ forall j, j < rep i -> ~ same j i.

(* two facets have a point in common *)
Definition Touch (rep : nat -> nat) (f g : list nat) : Prop := exists x y, In x f /\ In y g /\ rep x = rep y.
(* how often the edge between a and b, in either direction, is among the edges es *)
Definition uses (es : list (nat * nat)) (a b : nat) : nat :=
  length (filter (fun e => ((fst e =? a) && (snd e =? b)) || ((fst e =? b) && (snd e =? a))) es).
(* all edges of the facets numbered in G *)
Definition edges_of (rep : nat -> nat) (facets : list (list nat)) (G : list nat) : list (nat * nat) :=
  flat_map (fun g => ring (map rep (nth g facets []))) G.

(* G is a patch of facets around facet i: they all face the way i does, and each of them is
   joined to i by facets of G touching one another *)
Inductive Joined (rep : nat -> nat) (facets : list (list nat)) (G : list nat) (i : nat) : nat -> Prop :=
| joined_self : Joined rep facets G i i
| joined_next g h : Joined rep facets G i g -> In h G -> Touch rep (nth g facets []) (nth h facets []) ->
    Joined rep facets G i h.
Record Patch (points : list Q) (tol : Q) (rep : nat -> nat) (facets : list (list nat)) (i : nat) (G : list nat) : Prop := {
  pa_in : In i G;
  pa_facing : forall g, In g G -> exists ni ng, HasNormal points tol (nth i facets []) ni /\
      HasNormal points tol (nth g facets []) ng /\ (g = i \/ Facing tol ni ng);
  pa_joined : forall g, In g G -> Joined rep facets G i g }.
(* vs goes around the patch: every edge that belongs to the patch just once is in it once, and
   no other edge is *)
Definition Outline (rep : nat -> nat) (facets : list (list nat)) (G vs : list nat) : Prop :=
  forall a b, uses (ring vs) a b = if uses (edges_of rep facets G) a b =? 1 then 1 else 0.
(* the points before and after the i-th one of a closed way *)
Definition before (vs : list nat) (i : nat) : nat := nth ((i + length vs - 1) mod length vs) vs 0.
Definition after (vs : list nat) (i : nat) : nat := nth ((i + 1) mod length vs) vs 0.
(* cs are the points, in order, at which the closed way vs bends *)
Definition Corners (P : nat -> p3) (tol : Q) (vs cs : list nat) : Prop :=
  exists is, cs = map (fun i => nth i vs 0) is /\ Sorted.StronglySorted lt is /\
    forall i, In i is <-> i < length vs /\ Bends tol (P (before vs i)) (P (nth i vs 0)) (P (after vs i)).

(* the normal at a corner of a facet *)
Definition corner_at (P : nat -> p3) (cs : list nat) (i : nat) : p3 :=
  vcross (sub3 (P (nth i cs 0)) (P (before cs i))) (sub3 (P (after cs i)) (P (before cs i))).
(* all corners turn the way n points, or all the other way *)
Definition Turns (P : nat -> p3) (n : p3) (cs : list nat) : Prop :=
  forall i, i < length cs -> (0 < vdot n (corner_at P cs i))%Q.
(* the normal at the first three points *)
Definition first_normal (points : list Q) (f : list nat) : p3 :=
  vcross (sub3 (pos3 points (nth 1 f 0)) (pos3 points (nth 0 f 0))) (sub3 (pos3 points (nth 2 f 0)) (pos3 points (nth 0 f 0))).

(* one facet of the result, before points are renumbered: its corners cs, taken around the patch G
   of facet i in one or the other direction; a convex one faces the same way as facet i *)
Record NewFacet (points : list Q) (tol : Q) (rep : nat -> nat) (facets : list (list nat)) (i : nat) (G cs : list nat) : Prop := {
  nf_patch : Patch points tol rep facets i G;
  nf_outline : exists vs cs0, Outline rep facets G vs /\ Corners (pos3 points) tol vs cs0 /\ 3 <= length cs0 /\
      (cs = cs0 \/ cs = rev cs0) /\
      let n := first_normal points (nth i facets []) in
      (Turns (pos3 points) n cs0 \/ Turns (pos3 points) n (rev cs0) -> Turns (pos3 points) n cs) }.

(* the result: every facet with area is in exactly one patch, each patch gives one facet, and the
   points of the result are the corners, renumbered by ren *)
Record Simplified3 (points : list Q) (tol : Q) (rep : nat -> nat) (facets : list (list nat)) (points' : list Q) (facets' : list (list nat)) (patches : list (nat * list nat)) : Prop := {
  s3_cover : forall g, g < length facets -> ~ Degenerate points tol (nth g facets []) ->
      exists p, In p patches /\ In g (snd p);
  s3_once : NoDup (concat (map snd patches));
  s3_range : forall p g, In p patches -> In g (snd p) -> g < length facets /\ ~ Degenerate points tol (nth g facets []);
  s3_first : Sorted.StronglySorted lt (map fst patches);
  (* whatever touches the first facet of a patch and faces the same way is in that patch or in an
     earlier one *)
  s3_merged : forall a p g ni ng, nth_error patches a = Some p -> g < length facets ->
      HasNormal points tol (nth (fst p) facets []) ni -> HasNormal points tol (nth g facets []) ng -> Facing tol ni ng ->
      Touch rep (nth (fst p) facets []) (nth g facets []) ->
      exists b q, b <= a /\ nth_error patches b = Some q /\ In g (snd q);
  s3_facets : exists css ren, facets' = map (map ren) css /\
      Forall2 (fun p cs => NewFacet points tol rep facets (fst p) (snd p) cs) patches css /\
      (forall cs c, In cs css -> In c cs -> 3 * ren c + 3 <= length points' /\ pos3 points' (ren c) = pos3 points c) /\
      (forall c c' cs cs', In cs css -> In c cs -> In cs' css -> In c' cs' -> ren c = ren c' -> c = c') /\
      exists k, length points' = 3 * k /\ forall j, j < k -> exists cs c, In cs css /\ In c cs /\ ren c = j }.
