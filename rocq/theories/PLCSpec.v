(* What the constructions of piecewise linear complexes should give. *)
From Verif Require Import Base SerializeModel MeshModel MeshSpec.
From Coq Require Import Sorted.

(* the coordinates of point k of a flat array *)
Definition vertex {A} (D : nat) (pts : list A) (k : nat) : list A := firstn D (skipn (D * k) pts).

(* r is p reduced to the points its facets use; keep lists the old ids of the points kept *)
Record ReducedTo {A} (D : nat) (p : plc) (pts : list A) (r : rplc A) (keep : list nat) : Prop := {
  rd_sorted : StronglySorted lt keep;
  rd_used : forall i, In i keep <-> exists f, In f (facets p) /\ In (Z.of_nat i) f;
  rd_points : rpoints r = concat (map (vertex D pts) keep);
  (* same facets, same order, each vertex with the coordinates it had *)
  rd_facets : Forall2 (Forall2 (fun x x' => (0 <= x')%Z /\ nth_error keep (Z.to_nat x') = Some (Z.to_nat x) /\
      vertex D (rpoints r) (Z.to_nat x') = vertex D pts (Z.to_nat x))) (facets p) (rfacets r) }.

(* the same for its holes *)
Definition HolesKept {A} (D : nat) (p : plc) (pts : list A) (r : rplc A) : Prop :=
  Forall2 (Forall2 (Forall2 (fun x x' => vertex D (rpoints r) (Z.to_nat x') = vertex D pts (Z.to_nat x))))
    (holes p) (rholes r).

(* the consecutive pairs of a facet, cyclically *)
Definition ring {A} (l : list A) : list (A * A) :=
  match l with [] => [] | a :: t => combine l (t ++ [a]) end.

(* the directed edges of all facets *)
Definition facet_edges (fs : list (list Z)) : list (Z * Z) := flat_map ring fs.
Definition flip {A B} (e : A * B) : B * A := (snd e, fst e).
(* every edge is used exactly once in each direction *)
Definition closed_surface (fs : list (list Z)) : Prop :=
  NoDup (facet_edges fs) /\ forall e, In e (facet_edges fs) -> In (flip e) (facet_edges fs).

(* the nodes of a planar oriented face id, tail first *)
Definition walk {V} (m : mesh V) (z : Z) : option (nat * nat) :=
  match nth_error (faces m) (pid z) with
  | Some [a; b] => Some (if (0 <=? z)%Z then (a, b) else (b, a))
  | _ => None
  end.

(* the polygon of a planar cell c: one facet per face; facet k joins the two ends of the face
   after face k, tail first *)
Record CellPolygon {V} (m : mesh V) (c : list Z) (r : rplc V) : Prop := {
  cg_n : length (rfacets r) = length c;
  cg_points : length (rpoints r) = 2 * length c;
  cg_holes : rholes r = [];
  cg_facets : forall k z, k < length c -> nth_error c ((k + 1) mod length c) = Some z ->
     exists a b i j, walk m z = Some (a, b) /\ nth_error (rfacets r) k = Some [Z.of_nat i; Z.of_nat j] /\
       i < length c /\ j < length c /\
       vertex 2 (rpoints r) i = node_at 2 m a /\ vertex 2 (rpoints r) j = node_at 2 m b }.

(* the polyhedron of a cell: one facet per face, in the order of the cell, walking the nodes
   of the face forwards or, for ~f, backwards; the points are the nodes of these faces,
   without repetition *)
Record CellPolyhedron {V} (m : mesh V) (c : list Z) (r : rplc V) (keep : list nat) : Prop := {
  ch_nodup : NoDup keep;
  ch_used : forall n, In n keep <-> exists z f, In z c /\ nth_error (faces m) (pid z) = Some f /\ In n f;
  ch_points : rpoints r = concat (map (node_at 3 m) keep);
  ch_holes : rholes r = [];
  ch_facets : Forall2 (fun z row => exists f, nth_error (faces m) (pid z) = Some f /\
      Forall2 (fun n x => (0 <= x)%Z /\ nth_error keep (Z.to_nat x) = Some n /\
                          vertex 3 (rpoints r) (Z.to_nat x) = node_at 3 m n)
        (if (0 <=? z)%Z then f else rev f) row) c (rfacets r) }.
