(* What a Delaunay triangulation is, and what the cells read from it should be. *)
From Coq Require Import QArith.
From Verif Require Import Base PLCSpec Plane QuantMeshModel BoxProps WithinSpec.
Local Open Scope nat_scope.

(* squared distance *)
Definition sqd (p q : p2) : Q := ((fst p - fst q) * (fst p - fst q) + (snd p - snd q) * (snd p - snd q))%Q.

(* a triangle is given by the indices of its three corners *)
Definition corner (t : nat * nat * nat) (p : nat) : Prop := let '(a, b, c) := t in p = a \/ p = b \/ p = c.
(* triangle number i has the corner p *)
Definition touches (tris : list (nat * nat * nat)) (p i : nat) : Prop := exists t, nth_error tris i = Some t /\ corner t p.
(* the same triangle, read from another corner on *)
Definition turned (t u : nat * nat * nat) : Prop :=
  let '(a, b, c) := u in t = (a, b, c) \/ t = (b, c, a) \/ t = (c, a, b).

(* The triangles around an inner point p: going round p, the neighbors are link and the triangles
   ts; the i-th triangle lies between the i-th neighbor and the next one. *)
Record Star (tris : list (nat * nat * nat)) (p : nat) (link ts : list nat) : Prop := {
  st_size : 3 <= length link;
  st_same : length ts = length link;
  st_link : NoDup link;
  st_tris : NoDup ts;
  st_all : forall i, In i ts <-> touches tris p i;
  st_turn : forall i t a b, nth_error ts i = Some t -> nth_error link i = Some a ->
     nth_error link ((i + 1) mod length link) = Some b -> exists u, nth_error tris t = Some u /\ turned u (p, a, b) }.

(* x has the same distance from the three corners *)
Definition Center (pts : list p2) (t : nat * nat * nat) (x : p2) : Prop :=
  let '(a, b, c) := t in exists A B C, nth_error pts a = Some A /\ nth_error pts b = Some B /\ nth_error pts c = Some C /\
    (sqd x A == sqd x B)%Q /\ (sqd x A == sqd x C)%Q.
(* no point is closer to x than point p *)
Definition Nearest (pts : list p2) (p : nat) (x : p2) : Prop :=
  exists P, nth_error pts p = Some P /\ forall q, In q pts -> (sqd x P <= sqd x q)%Q.

(* What is expected of the triangulation: counterclockwise triangles, no point inside a
   circumcircle, no edge in more than two triangles, and every one of the first ngen points
   surrounded by triangles. *)
Record Delaunay (pts : list p2) (ngen : nat) (tris : list (nat * nat * nat)) : Prop := {
  dl_ccw : forall a b c, In (a, b, c) tris -> exists A B C, nth_error pts a = Some A /\ nth_error pts b = Some B /\
     nth_error pts c = Some C /\ (0 < orient A B C)%Q;
  dl_empty : forall t p x, In t tris -> Center pts t x -> corner t p -> Nearest pts p x;
  dl_edge : forall a b i j k, a <> b -> touches tris a i -> touches tris b i -> touches tris a j -> touches tris b j ->
     touches tris a k -> touches tris b k -> i = j \/ i = k \/ j = k;
  dl_star : forall p, p < ngen -> exists link ts, Star tris p link ts }.

(* A signed edge of a cell, as (from, to): node ids. *)
Definition way (edges : list (nat * nat)) (z : Z) : option (nat * nat) :=
  match nth_error edges (pid z) with
  | None => None
  | Some (a, b) => Some (if (0 <=? z)%Z then (a, b) else (b, a))
  end.
(* The triangles that have a generator among their corners, in order: the owner of node k is the
   k-th of them. *)
Definition real (ngen : nat) (t : nat * nat * nat) : bool :=
  let '(a, b, c) := t in (a <? ngen) || (b <? ngen) || (c <? ngen).
Definition owners (ngen : nat) (tris : list (nat * nat * nat)) : list nat :=
  filter (fun i => match nth_error tris i with Some t => real ngen t | None => false end) (seq 0 (length tris)).
Definition owner (ngen : nat) (tris : list (nat * nat * nat)) (k i : nat) : Prop := nth_error (owners ngen tris) k = Some i.

(* the two triangles behind the nodes a and b share the corners p and q *)
Definition AcrossEdge (ngen : nat) (tris : list (nat * nat * nat)) (p q a b : nat) : Prop :=
  p <> q /\ exists i j, owner ngen tris a i /\ owner ngen tris b j /\ i <> j /\
    touches tris p i /\ touches tris q i /\ touches tris p j /\ touches tris q j.

(* The mesh is dual to the triangulation. *)
Record Dual (ngen : nat) (tris : list (nat * nat * nat)) (nnodes : nat) (edges : list (nat * nat)) (cells : list (list Z)) : Prop := {
  du_nodes : nnodes = length (owners ngen tris);
  du_cells : length cells = ngen;
  (* every cell goes once through the nodes of the triangles around its generator, always to a
     triangle across a common edge *)
  du_ring : forall p c, nth_error cells p = Some c -> exists r,
     map (way edges) c = map Some (ring r) /\ 3 <= length r /\ NoDup r /\
     (forall k, In k r <-> exists i, owner ngen tris k i /\ touches tris p i) /\
     (forall a b, In (a, b) (ring r) -> exists q, AcrossEdge ngen tris p q a b);
  (* no edge is stored twice *)
  du_edges : NoDup edges;
  du_order : forall a b, In (a, b) edges -> a < b /\ b < nnodes;
  (* an edge separates two of the points, and exactly the cells of these two use it *)
  du_used : forall e a b, nth_error edges e = Some (a, b) -> exists p q, AcrossEdge ngen tris p q a b /\ p < ngen /\
     forall i c, nth_error cells i = Some c -> ((exists z, In z c /\ pid z = e) <-> i = p \/ i = q) }.

(* v is the lower left corner of the grid square that contains x *)
Definition Beside (f : frame) (v : Z * Z) (x : p2) : Prop :=
  exists vx vy, dequantize f v = [vx; vy] /\ (vx <= fst x < vx + spacing f)%Q /\ (vy <= snd x < vy + spacing f)%Q.
(* node k stands for the point x, the center of the circle through the corners of its triangle *)
Definition VertexAt (f : frame) (pts : list p2) (ngen : nat) (tris : list (nat * nat * nat)) (nodes : list (Z * Z)) (k : nat) (x : p2) : Prop :=
  exists v i t, nth_error nodes k = Some v /\ owner ngen tris k i /\ nth_error tris i = Some t /\ Center pts t x /\ Beside f v x.
(* walking along xs the whole list stays to the left, or it stays to the right *)
Definition OneSided (xs : list p2) : Prop :=
  (forall x y z, In (x, y) (ring xs) -> In z xs -> (0 <= orient x y z)%Q) \/
  (forall x y z, In (x, y) (ring xs) -> In z xs -> (orient x y z <= 0)%Q).
(* The cell c of point p runs once around the places to which no point is closer than p. *)
Definition VoronoiCell (f : frame) (pts : list p2) (ngen : nat) (tris : list (nat * nat * nat)) (nodes : list (Z * Z)) (edges : list (nat * nat)) (p : nat) (c : list Z) : Prop :=
  exists r xs, map (way edges) c = map Some (ring r) /\ Forall2 (VertexAt f pts ngen tris nodes) r xs /\ OneSided xs /\
    forall x, Nearest pts p x <-> Combination xs x.
