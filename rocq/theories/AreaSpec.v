(* Cells of a mesh as polygons and polyhedra. *)
From Verif Require Import Base SerializeModel MeshModel PLCSpec Plane.
From Coq Require Import QArith.
Local Open Scope Q_scope.

(* node n of the mesh lies at p *)
Definition pos2 (m : mesh Q) (n : nat) (p : p2) : Prop :=
  nth_error (nodes m) (2 * n) = Some (fst p) /\ nth_error (nodes m) (2 * n + 1) = Some (snd p).
Definition pos3 (m : mesh Q) (n : nat) (p : p3) : Prop :=
  nth_error (nodes m) (3 * n) = Some (X3 p) /\ nth_error (nodes m) (3 * n + 1) = Some (Y3 p) /\ nth_error (nodes m) (3 * n + 2) = Some (Z3 p).

(* the directed edges of planar cell ci, as positions, in the order of its faces *)
Definition CellEdges (m : mesh Q) (ci : nat) (es : list (p2 * p2)) : Prop :=
  exists c, nth_error (cells m) ci = Some c /\
    Forall2 (fun z e => exists a b, walk m z = Some (a, b) /\ a <> b /\ pos2 m a (fst e) /\ pos2 m b (snd e)) c es.

(* g is the mean of the points ps *)
Definition Mean3 (ps : list p3) (g : p3) : Prop :=
  let n := inject_Z (Z.of_nat (length ps)) in
  ps <> [] /\ n * X3 g == sumf X3 ps /\ n * Y3 g == sumf Y3 ps /\ n * Z3 g == sumf Z3 ps.
(* the sides of a cell in space: each face walked outward, with its middle point *)
Definition CellSides (m : mesh Q) (ci : nat) (sides : list (list p3 * p3)) : Prop :=
  exists c, nth_error (cells m) ci = Some c /\
    Forall2 (fun z s => exists f, nth_error (faces m) (pid z) = Some f /\
        Forall2 (pos3 m) (if (0 <=? z)%Z then f else rev f) (fst s) /\ Mean3 (fst s) (snd s)) c sides.
(* its surface: every side cut into triangles around its middle point *)
Definition surface (sides : list (list p3 * p3)) : list (p3 * p3 * p3) :=
  flat_map (fun s => map (fun e => (fst e, snd e, snd s)) (ring (fst s))) sides.

(* affine maps of the plane *)
Record affine := mkAffine { axx : Q; axy : Q; ayx : Q; ayy : Q; atx : Q; aty : Q }.
Definition aff (T : affine) (p : p2) : p2 :=
  (axx T * fst p + axy T * snd p + atx T, ayx T * fst p + ayy T * snd p + aty T).
Definition aff_det (T : affine) : Q := axx T * ayy T - axy T * ayx T.

(* g is the mean of the distinct nodes u of the faces c, in D coordinates *)
Record NodeMean (D : nat) (m : mesh Q) (c : list Z) (u : list nat) (g : list Q) : Prop := {
  nm_nodup : NoDup u;
  nm_nodes : forall n, In n u <-> exists z f, In z c /\ nth_error (faces m) (pid z) = Some f /\ In n f;
  nm_some : u <> [];
  nm_dim : length g = D;
  nm_mean : forall j, (j < D)%nat -> (forall n, In n u -> (D * n + j < length (nodes m))%nat) /\
     inject_Z (Z.of_nat (length u)) * nth j g 0 == sumf (fun n => nth (D * n + j) (nodes m) 0) u }.

(* squared distances *)
Definition d2 (p q : p2) : Q := (fst p - fst q) * (fst p - fst q) + (snd p - snd q) * (snd p - snd q).
Definition d3 (p q : p3) : Q := (X3 p - X3 q) * (X3 p - X3 q) + (Y3 p - Y3 q) * (Y3 p - Y3 q) + (Z3 p - Z3 q) * (Z3 p - Z3 q).
