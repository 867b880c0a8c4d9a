(* What the Voronoi diagram of points on a grid is, and what the tessellation made from it should
   be. *)
From Coq Require Import QArith Qabs.
From Verif Require Import Base SerializeModel MeshModel QuantMeshModel PLCSpec BoxModel BoxProofs BoxProps Plane WithinSpec TriModel TriSpec BoostModel ClipModel BoundedSpec.
Local Open Scope nat_scope.

Definition grid_pt (p : pt) : p2 := (inject_Z (fst p), inject_Z (snd p)).
(* a corner of the diagram cell *)
Definition v_corner (c : vcell) (x : p2) : Prop := exists e, In e (v_walk c) /\ (fst e = Some x \/ snd e = Some x).

(* The walk around the cell of site p goes once, counterclockwise, round the corners xs of the set of
   places to which no site is closer than p. *)
Definition VoronoiWalk (sites : list pt) (p : nat) (walk : list (option p2 * option p2)) (xs : list p2) : Prop :=
  walk = map (fun e => (Some (fst e), Some (snd e))) (ring xs) /\ 3 <= length xs /\ StrictlyConvex xs /\
  forall x, Nearest (map grid_pt sites) p x <-> Combination xs x.
(* The cells of the diagram belong to different sites; each of the first ngen sites has one, bounded
   by its corners. *)
Record Diagram (sites : list pt) (ngen : nat) (vd : list vcell) : Prop := {
  dg_site : forall c, In c vd -> v_src c < length sites;
  dg_once : NoDup (map v_src vd);
  dg_cell : forall p, p < ngen -> exists c xs, In c vd /\ v_src c = p /\ v_point c = true /\ VoronoiWalk sites p (v_walk c) xs }.
(* corners of these cells are the same or two steps of the grid apart in x or in y *)
Definition CornersApart (ngen : nat) (vd : list vcell) : Prop :=
  forall c c' x y, In c vd -> In c' vd -> v_src c < ngen -> v_src c' < ngen -> v_corner c x -> v_corner c' y ->
    (fst x == fst y /\ snd x == snd y)%Q \/ (2 <= Qabs (fst x - fst y))%Q \/ (2 <= Qabs (snd x - snd y))%Q.

(* the grid point v is less than one step away from the place x *)
Definition Near1 (f : frame) (v : pt) (x : p2) : Prop :=
  (Qabs (fst (deq f v) - fst x) < spacing f)%Q /\ (Qabs (snd (deq f v) - snd x) < spacing f)%Q.
(* The closed polygon stands for the set of places to which no point is closer than point p: it has
   the corners xs of this set, in order, moved by less than one step of the grid. *)
Definition RegionPolygon (f : frame) (pts : list p2) (p : nat) (poly : polygon) : Prop :=
  exists v vs xs, poly = v :: vs ++ [v] /\ NoDup (v :: vs) /\ 3 <= length xs /\ StrictlyConvex xs /\ Forall2 (Near1 f) (v :: vs) xs /\
    forall x, Nearest pts p x <-> Combination xs x.

(* The mesh of these polygons.  Two cells with a common face go along it in opposite directions. *)
Record BoostMesh (f : frame) (pts : list p2) (points : list Q) (m : mesh Q) : Prop := {
  bt_cells : 2 * length (cells m) = length points;
  bt_region : exists polys, PolygonMesh f polys m /\ forall p poly, nth_error polys p = Some poly -> RegionPolygon f pts p poly;
  bt_opposite : forall p q c d i j z w, nth_error (cells m) p = Some c -> nth_error (cells m) q = Some d ->
     nth_error c i = Some z -> nth_error d j = Some w -> pid z = pid w -> (p = q /\ i = j) \/ w = Z.lnot z;
  (* there are boundary faces *)
  bt_some : boundaryFaces m <> [];
  (* the points as the tessellator sees them: moved by less than one step of the grid *)
  bt_points : forall i x y, vertex 2 points i = [x; y] -> exists vx vy, nth_error pts i = Some (vx, vy) /\
     (vx <= x < vx + spacing f)%Q /\ (vy <= y < vy + spacing f)%Q;
  (* points that were added do not matter between the given ones *)
  bt_guards : forall lo hi p x, TightBox 2 (points_of 2 points) (lo, hi) -> p < length (cells m) ->
     (forall j l h y, nth_error lo j = Some l -> nth_error hi j = Some h -> nth_error [fst x; snd x] j = Some y -> (l <= y <= h)%Q) ->
     (Nearest pts p x <-> Nearest (firstn (length (cells m)) pts) p x) }.
