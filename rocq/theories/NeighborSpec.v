(* Which domains are neighbors. *)
From Verif Require Import Base SerializeModel SerializeSpec MeshModel MeshSpec SerialDistSpec Plane PLCSpec WithinSpec HullModel HullSpec.
From Coq Require Import Sorted QArith.
Local Open Scope nat_scope.

(* the complexes the n ranks send can be sent: whole points, values and sizes in range *)
Record Sendable (D n : nat) (hull : nat -> rplc Z) : Prop := {
  sd_ranks : (Z.of_nat n < 2 ^ 32)%Z;
  sd_fits : forall r, r < n -> fits (TReducedPLC TDouble) (hull r);
  sd_small : forall r, r < n -> (Z.of_nat (length (serialize (TReducedPLC TDouble) (hull r))) < 2 ^ 32)%Z;
  sd_whole : forall r, r < n -> exists c, length (rpoints (hull r)) = D * c }.

(* the points rank r makes visible to the others *)
Definition visible (hull : nat -> rplc Z) (r : nat) : list Z := rpoints (hull r).

(* nb lists the neighbors of rank r among n, in increasing order: the other ranks whose hull meets
   that of r, and those with a cell that has a node in common with a cell of r in the mesh m of all
   visible points *)
Record NeighborList {V} (n : nat) (Meet : nat -> nat -> Prop) (m : mesh V) (owns : nat -> nat -> Prop) (r : nat) (nb : list nat) : Prop := {
  nl_sorted : StronglySorted lt nb;
  nl_exact : forall s, In s nb <-> s < n /\ s <> r /\ (Meet s r \/ exists x, SharedNode m owns r s x) }.

(* the points of the plane a flat array of bit patterns stands for *)
Fixpoint points2 (val : Z -> Q) (l : list Z) : list p2 := match l with x :: y :: t => (val x, val y) :: points2 val t | _ => [] end.
Definition SamePoint (p q : p2) : Prop := (fst p == fst q /\ snd p == snd q)%Q.

(* h, as sent by a rank with the points pts: some of these points, of which all others are convex
   combinations, and lines between them with no point of pts on their right *)
Definition facet_between (ps : list p2) (f : list Z) (e : p2 * p2) : Prop :=
  exists i j, f = [Z.of_nat i; Z.of_nat j] /\ nth_error ps i = Some (fst e) /\ nth_error ps j = Some (snd e).
Record Outline (val : Z -> Q) (pts : list Z) (h : rplc Z) : Prop := {
  ou_whole : exists c, length (rpoints h) = 2 * S c;
  ou_own : forall p, In p (points2 val (rpoints h)) -> In p (points2 val pts);
  ou_span : forall p, In p (points2 val pts) -> Combination (points2 val (rpoints h)) p;
  ou_edges : exists es, Forall2 (facet_between (points2 val (rpoints h))) (rfacets h) es /\ forall e p, In e es -> In p (points2 val pts) -> (0 <= orient (fst e) (snd e) p)%Q }.

(* the planar mesh m has a polygon for each of the points *)
Record PolygonMesh {V} (npts : nat) (m : mesh V) : Prop := {
  pm_cells : length (cells m) = npts;
  pm_corners : forall i c, nth_error (cells m) i = Some c -> 3 <= length c;
  pm_faces : forall i c z, nth_error (cells m) i = Some c -> In z c ->
     exists a b, nth_error (faces m) (pid z) = Some [a; b] /\ a < length (nodes m) / 2 /\ b < length (nodes m) / 2 }.
(* node x ends a face of cell i, walked as the cell walks it *)
Definition CornerOf {V} (m : mesh V) (i x : nat) : Prop :=
  exists c z a b, nth_error (cells m) i = Some c /\ In z c /\ nth_error (faces m) (pid z) = Some [a; b] /\ x = if (z <? 0)%Z then a else b.
Definition node2 (val : Z -> Q) (m : mesh Z) (x : nat) : p2 := (val (nth (2 * x) (nodes m) 0%Z), val (nth (2 * x + 1) (nodes m) 0%Z)).

(* x is nearer to p than to, or as near as to, each of the points ps *)
Definition InCell (ps : list p2) (p x : p2) : Prop := forall q, In q ps -> (dist2 x p <= dist2 x q)%Q.
(* the nodes of each polygon are in the Voronoi region of its point *)
Definition VoronoiMesh (val : Z -> Q) (pts : list Z) (m : mesh Z) : Prop :=
  PolygonMesh (length pts / 2) m /\
  forall i p x, nth_error (points2 val pts) i = Some p -> NodeOf m i x -> InCell (points2 val pts) p (node2 val m x).

(* the points of one rank: some, not too many to be sent, on the grid of the tessellator and not
   closer than two steps unless equal; on a line or seen at an angle from the first one *)
Record RankPoints (val : Z -> Q) (low : p2) (dx : Q) (uniq : list hpt) (pts : list Z) : Prop := {
  rp_whole : exists k, length pts = 2 * S k;
  rp_fits : Forall (fits TDouble) pts;
  rp_few : (22 * Z.of_nat (length pts) + 12 < 2 ^ 31)%Z;
  rp_grid : exists zs hs, OnGrid (points2 val pts) low dx zs /\ Apart zs /\ hpoints (points2 val pts) low dx = Ok hs /\ set_fill hs [] uniq;
  rp_shape : SeenBent (points2 val pts) dx \/ OnLine (points2 val pts) }.

(* The mesh is complete within the region Box: the polygon of a point covers its Voronoi region, and
   polygons whose regions touch have a node in common. *)
Record CompleteMesh (val : Z -> Q) (Box : p2 -> Prop) (pts : list Z) (m : mesh Z) : Prop := {
  cm_cover : forall i p x, nth_error (points2 val pts) i = Some p -> Box x -> InCell (points2 val pts) p x ->
     exists ns, (forall y, In y ns -> exists k, CornerOf m i k /\ y = node2 val m k) /\ Combination ns x;
  cm_touch : forall i j p q x, nth_error (points2 val pts) i = Some p -> nth_error (points2 val pts) j = Some q -> Box x ->
     InCell (points2 val pts) p x -> InCell (points2 val pts) q x -> exists k, NodeOf m i k /\ NodeOf m j k }.
(* x is not strictly inside the convex hull of the points *)
Definition NotInside (ps : list p2) (x : p2) : Prop :=
  forall cs, incl cs ps -> 3 <= length cs -> StrictlyConvex cs -> (forall p, In p ps -> InPolygon p cs) -> ~ StrictlyInside x cs.
