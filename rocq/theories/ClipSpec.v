(* What clipping a tessellation against a boundary should do. *)
From Coq Require Import QArith.
From Verif Require Import Base SerializeModel MeshModel QuantMeshModel QuantMeshSpec PLCSpec BoxModel ClipModel.
Local Open Scope nat_scope.

(* pts are the first points of the facets, on the grid *)
Definition Outline (f : frame) (PLCpoints : list Q) (fs : list (list Z)) (pts : polygon) : Prop :=
  Forall2 (fun fc p => exists a b x y, fc = [Z.of_nat a; b] /\ vertex 2 PLCpoints a = [x; y] /\ p = quantize f (x, y)) fs pts.

(* the library cuts the cell, a loop of corners, to one closed polygon with at least three
   corners around the generator *)
Definition OnePiece (lib : polylib) (bs : list polygon) (gen : pt) (corners : polygon) (poly : polygon) : Prop :=
  b_and lib (b_or lib [] [corners]) bs = [poly] /\ b_contains lib poly gen = true /\
  exists v vs, poly = v :: vs ++ [v] /\ 2 <= length vs.
(* the corners of a cell: where its edges start *)
Definition Corners (ns : list pt) (es : list (nat * nat)) (c : list Z) (corners : polygon) : Prop :=
  exists segs, map (oriented_ends ns es) c = map Some segs /\ corners = map fst segs.

(* the sides of a closed polygon *)
Definition sides (poly : polygon) : list (pt * pt) := combine poly (tl poly).
(* corners are the same or more than 4 apart in x or in y *)
Definition WellApart (polys : list polygon) : Prop :=
  forall p q a b, In p polys -> In q polys -> In a p -> In b q ->
    a = b \/ (4 < Z.abs (fst a - fst b))%Z \/ (4 < Z.abs (snd a - snd b))%Z.

(* The mesh of the polygons: cell i goes along the sides of polygon i that have a length, in order;
   nodes are corners, none twice; edges are sides, none twice, smaller node first. *)
Record MeshOf (polys : list polygon) (ns : list pt) (es : list (nat * nat)) (cs : list (list Z)) : Prop := {
  mo_cells : length cs = length polys;
  mo_walk : forall i c p, nth_error cs i = Some c -> nth_error polys i = Some p ->
    map (oriented_ends ns es) c = map Some (filter (fun s => negb (pt_eqb (fst s) (snd s))) (sides p));
  mo_nodes : forall q, In q ns <-> exists p s, In p polys /\ In s (sides p) /\ (q = fst s \/ q = snd s);
  mo_once : NoDup ns;
  mo_edges : NoDup es;
  mo_order : forall a b, In (a, b) es -> a < b /\ b < length ns;
  mo_sides : forall a b, In (a, b) es -> exists p s x y, In p polys /\ In s (sides p) /\ nth_error ns a = Some x /\ nth_error ns b = Some y /\
    (s = (x, y) \/ s = (y, x)) }.
