(* What being nearest on a boundary means. *)
From Verif Require Import Base SerializeModel MeshModel NearModel.
From Coq Require Import Reals.
Local Open Scope R_scope.

(* Euclidean distance *)
Definition euclid (a b : R * R) : R := sqrt ((fst a - fst b) ^ 2 + (snd a - snd b) ^ 2).
(* q is a point of the segment ab *)
Definition OnSegment (a b q : R * R) : Prop :=
  exists t, 0 <= t <= 1 /\ fst q = fst a + t * (fst b - fst a) /\ snd q = snd a + t * (snd b - snd a).
(* point i of a flat array *)
Definition point_at (v : list R) (i : nat) (q : R * R) : Prop :=
  nth_error v (2 * i) = Some (fst q) /\ nth_error v (2 * i + 1) = Some (snd q).
(* the facets of a complex, those of its holes included *)
Definition some_facet (g : plc) (f : list Z) : Prop := In f (facets g) \/ exists h, In h (holes g) /\ In f h.
(* q lies on facet f of a complex over the points v *)
Definition OnFacet (v : list R) (f : list Z) (q : R * R) : Prop :=
  exists i j a b, f = [Z.of_nat i; Z.of_nat j] /\ point_at v i a /\ point_at v j b /\ OnSegment a b q.
Definition OnBoundary (v : list R) (g : plc) (q : R * R) : Prop := exists f, some_facet g f /\ OnFacet v f q.
(* every facet is a segment between two of the points *)
Definition segments (v : list R) (g : plc) : Prop :=
  forall f, some_facet g f -> exists i j, f = [Z.of_nat i; Z.of_nat j] /\ (2 * i + 1 < length v)%nat /\ (2 * j + 1 < length v)%nat.
(* the length of segment ab is not positive but below 1e-10 *)
Definition Tiny (a b : R * R) : Prop := 0 < euclid a b < / 10 ^ 10.

(* the tolerance the code works with: half of 1e-10 *)
Definition slack : R := / 2 * / 10 ^ 10.
(* q' is a boundary point nearest to q, up to the slack, and exactly nearest when no facet is tiny *)
Definition no_tiny_facet (v : list R) (g : plc) : Prop :=
  forall i j a b, some_facet g [Z.of_nat i; Z.of_nat j] -> point_at v i a -> point_at v j b -> ~ Tiny a b.
Definition NearestOn (v : list R) (g : plc) (q q' : R * R) : Prop :=
  OnBoundary v g q' /\ (forall c, OnBoundary v g c -> euclid q q' <= euclid q c + slack) /\
  (no_tiny_facet v g -> forall c, OnBoundary v g c -> euclid q q' <= euclid q c).

(* w is the larger side of the bounding box of the points v *)
Record LargestSide (v : list R) (w : R) : Prop := {
  ls_bound : forall i j a b, point_at v i a -> point_at v j b -> Rabs (fst a - fst b) <= w /\ Rabs (snd a - snd b) <= w;
  ls_met : exists i j a b, point_at v i a /\ point_at v j b /\ (fst a - fst b = w \/ snd a - snd b = w) }.

(* m' is m with its boundary nodes moved by less than tol onto the boundary, each boundary
   point being the exact position of some boundary node *)
Record Snapped (v : list R) (g : plc) (tol : R) (m m' : mesh R) : Prop := {
  sn_cells : cells m' = cells m;
  sn_faces : faces m' = faces m;
  sn_fcells : faceCells m' = faceCells m;
  sn_bn : boundaryNodes m' = boundaryNodes m /\ boundaryFaces m' = boundaryFaces m;
  sn_lists : convexHull m' = convexHull m /\ neighborDomains m' = neighborDomains m /\
             sharedNodes m' = sharedNodes m /\ sharedFaces m' = sharedFaces m;
  sn_size : length (nodes m') = length (nodes m);
  sn_other : forall n q, ~ In n (boundaryNodes m) -> point_at (nodes m) n q -> point_at (nodes m') n q;
  sn_corner : forall k c, point_at v k c -> exists n, In n (boundaryNodes m) /\ point_at (nodes m') n c;
  sn_on : forall n, In n (boundaryNodes m) -> exists q q', point_at (nodes m) n q /\ point_at (nodes m') n q' /\
     euclid q q' < tol /\ ((exists k, point_at v k q') \/ NearestOn v g q q') }.

(* every boundary point has its own boundary node, nearer than tol, all other boundary nodes
   being further than tol from it, and every boundary node is nearer to the boundary than tol *)
Record Snappable (v : list R) (g : plc) (tol : R) (m : mesh R) (corner : nat -> nat) : Prop := {
  sb_corner : forall k c, point_at v k c -> In (corner k) (boundaryNodes m) /\
     exists q, point_at (nodes m) (corner k) q /\ euclid q c < tol;
  sb_apart : forall k c n q, point_at v k c -> In n (boundaryNodes m) -> point_at (nodes m) n q -> n <> corner k -> tol < euclid q c;
  sb_inj : forall k k' c c', point_at v k c -> point_at v k' c' -> corner k = corner k' -> k = k';
  sb_near : forall n, In n (boundaryNodes m) -> exists q c, point_at (nodes m) n q /\ OnBoundary v g c /\ euclid q c + slack < tol }.
