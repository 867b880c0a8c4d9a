(* What a tessellation of points in the plane should be. *)
From Coq Require Import QArith Sorted.
From Verif Require Import Base SerializeModel MeshModel MeshSpec QuantMeshModel PLCSpec BoxProofs BoxProps Plane WithinSpec TriSpec.
Local Open Scope nat_scope.

(* A signed face of a planar cell, as (from, to): node ids. *)
Definition walk (m : mesh Q) (z : Z) : option (nat * nat) :=
  match nth_error (faces m) (pid z) with
  | Some [a; b] => Some (if (0 <=? z)%Z then (a, b) else (b, a))
  | _ => None
  end.
(* node k is at x, up to one step of the grid *)
Definition NodeNear (f : frame) (m : mesh Q) (k : nat) (x : p2) : Prop :=
  exists vx vy, node_at 2 m k = [vx; vy] /\ (vx <= fst x < vx + spacing f)%Q /\ (vy <= snd x < vy + spacing f)%Q.
(* The faces of the cell go once round it, from node to node, and the nodes are the corners of the
   set of places to which no point is closer than point p. *)
Definition RegionCell (f : frame) (pts : list p2) (m : mesh Q) (p : nat) (c : list Z) : Prop :=
  exists r xs, map (walk m) c = map Some (ring r) /\ 3 <= length r /\ NoDup r /\ Forall2 (NodeNear f m) r xs /\ OneSided xs /\
    forall x, Nearest pts p x <-> Combination xs x.

Record Tessellated (f : frame) (pts : list p2) (points : list Q) (m : mesh Q) : Prop := {
  ts_mesh : WellFormed 2 m;
  (* one cell per point, in order *)
  ts_cells : 2 * length (cells m) = length points;
  ts_region : forall p c, nth_error (cells m) p = Some c -> RegionCell f pts m p c;
  (* the points as the tessellator sees them: moved by less than one step of the grid *)
  ts_points : forall i x y, vertex 2 points i = [x; y] -> exists vx vy, nth_error pts i = Some (vx, vy) /\
     (vx <= x < vx + spacing f)%Q /\ (vy <= y < vy + spacing f)%Q;
  (* points that were added do not matter between the given ones *)
  ts_guards : forall lo hi p x, TightBox 2 (points_of 2 points) (lo, hi) -> p < length (cells m) ->
     (forall j l h y, nth_error lo j = Some l -> nth_error hi j = Some h -> nth_error [fst x; snd x] j = Some y -> (l <= y <= h)%Q) ->
     (Nearest pts p x <-> Nearest (firstn (length (cells m)) pts) p x);
  (* boundary faces: those with one cell; there are some *)
  ts_some : boundaryFaces m <> [];
  ts_bfaces : forall k, In k (boundaryFaces m) <-> exists fc, nth_error (faceCells m) k = Some fc /\ length fc = 1;
  ts_bnodes : forall n, In n (boundaryNodes m) <-> exists k ns, In k (boundaryFaces m) /\ nth_error (faces m) k = Some ns /\ In n ns;
  ts_sorted : StronglySorted lt (boundaryFaces m) /\ StronglySorted lt (boundaryNodes m) }.
