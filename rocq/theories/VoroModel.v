(* Model of VoroPP_3d::tessellate, src/VoroPP_3d.cc: what is read out of Voro++.  Coordinates are
   exact rationals in place of double; KeyTraits::Key is int.  The library is an argument. *)
From Verif Require Import Base PLCSpec MeshModel Plane MeshEditorModel HullModel.
From Coq Require Import QArith.
Local Open Scope nat_scope.

(* What the library tells of a cell, in the order in which its loop visits the cells
   (lines 222-261): pid, the position of the particle, the centroid, which is relative to that
   position, pts, the vertices relative to that position and times two, and face_vertices, one list
   of vertex numbers per face (the library puts the length before each). *)
Record vcell := mkVcell { vc_pid : nat; vc_pos : p3; vc_centroid : p3; vc_pts : list p3; vc_faces : list (list nat) }.
Record voro := mkVoro { vl_total : list p3 -> nat; vl_cells : list p3 -> list vcell }.

(* Point3<int>(x, y, z, dx), Point.hh lines 108-113: conversion to int is undefined out of range *)
Notation ipt := (Z * Z * Z)%type.
Definition as_int (q : Q) : res Z :=
  let z := trunc q in if ((- 2 ^ 31 <=? z) && (z <? 2 ^ 31))%Z then Ok z else UB.
Definition grid_point (dx : Q) (p : p3) : res ipt :=
  do x <- as_int (X3 p / dx + (1 # 2))%Q; do y <- as_int (Y3 p / dx + (1 # 2))%Q; do z <- as_int (Z3 p / dx + (1 # 2))%Q; Ok (x, y, z).
Definition ipt_eqb (a b : ipt) : bool := let '(x, y, z) := a in let '(u, v, w) := b in (x =? u)%Z && (y =? v)%Z && (z =? w)%Z.

(* updateMeshVertices, lines 31-82.  vertexHash2ID is the list of the points by number.  The loops
   go from one below, if positive, to the point itself. *)
Definition below (x : Z) : list Z := if (0 <? x)%Z then [x - 1; x]%Z else [x].
Definition tries (p : ipt) : list ipt :=
  let '(x, y, z) := p in flat_map (fun iz => flat_map (fun iy => map (fun ix => (ix, iy, iz)) (below x)) (below y)) (below z).
Fixpoint number (ns : list ipt) (p : ipt) : option nat :=
  match ns with [] => None | q :: t => if ipt_eqb q p then Some 0 else option_map S (number t p) end.
Fixpoint first_known (ns : list ipt) (ps : list ipt) : option nat :=
  match ps with [] => None | p :: t => match number ns p with Some i => Some i | None => first_known ns t end end.
Definition add_vertex (ns : list ipt) (p : ipt) : res (list ipt * nat) :=
  let '(x, y, z) := p in
  if ((x =? 2 ^ 31 - 1) || (y =? 2 ^ 31 - 1) || (z =? 2 ^ 31 - 1))%Z then UB else   (* 50-52 *)
  match first_known ns (tries p) with
  | Some j => Ok (ns, j)
  | None => Ok (ns ++ [p], length ns)
  end.
Definition updateMeshVertices (ns : list ipt) (vs : list ipt) : res (list ipt * list nat) :=
  mfold (fun '(ns, ids) p => do (ns, j) <- add_vertex ns p; Ok (ns, ids ++ [j])) vs (ns, []).

(* insertFaceInfo, lines 87-129.  faceHash2ID maps the set of the nodes of each face to its
   number: the list of the faces is that map. *)
Record vmesh := mkV { v_cells : list (list Z); v_faces : list (list nat); v_fcells : list (list Z) }.
Definition memn (x : nat) (l : list nat) : bool := existsb (Nat.eqb x) l.
Definition same_set (a b : list nat) : bool := forallb (fun x => memn x b) a && forallb (fun x => memn x a) b.
Fixpoint face_id (fs : list (list nat)) (f : list nat) : option nat :=
  match fs with [] => None | g :: t => if same_set g f then Some 0 else option_map S (face_id t f) end.
Definition count_z (z : Z) (l : list Z) : nat := length (filter (Z.eqb z) l).
Definition insertFaceInfo (icell : nat) (st : vmesh) (ids : list nat) : res vmesh :=
  match face_id (v_faces st) ids with
  | None =>
      let iface := length (v_faces st) in
      do c <- get (v_cells st) icell;
      let c := c ++ [Z.of_nat iface] in
      do cs <- set (v_cells st) icell c;
      do _ <- assert (count_z (Z.of_nat iface) c =? 1);
      do _ <- assert (length (v_fcells st ++ [[Z.of_nat icell]]) =? iface + 1);
      Ok (mkV cs (v_faces st ++ [ids]) (v_fcells st ++ [[Z.of_nat icell]]))
  | Some iface =>
      do c <- get (v_cells st) icell;
      let z := Z.lnot (Z.of_nat iface) in
      let c := c ++ [z] in
      do cs <- set (v_cells st) icell c;
      do fc <- get (v_fcells st) iface;
      let fc := fc ++ [Z.lnot (Z.of_nat icell)] in
      do fcs <- set (v_fcells st) iface fc;
      do _ <- assert (count_z z c =? 1);
      do _ <- assert (length fc =? 2);
      do w <- get fc 1;
      do _ <- assert (w =? Z.lnot (Z.of_nat icell))%Z;
      Ok (mkV cs (v_faces st) fcs)
  end.

(* lines 271-301: the nodes of a face, each once *)
Definition face_nodes (ids : list nat) (f : list nat) : res (list nat) :=
  do _ <- assert (3 <=? length f);
  do ns <- mfold (fun acc k => do _ <- assert (k <? length ids); do j <- get ids k; Ok (if memn j acc then acc else acc ++ [j])) f [];
  do _ <- assert (3 <=? length ns);
  Ok ns.
(* lines 225-302: one cell *)
Definition add3 (a b : p3) : p3 := (X3 a + X3 b, Y3 a + Y3 b, Z3 a + Z3 b)%Q.
Definition half3 (a : p3) : p3 := ((1 # 2) * X3 a, (1 # 2) * Y3 a, (1 # 2) * Z3 a)%Q.
Definition read_vcell (dx : Q) (st : list ipt * vmesh) (c : vcell) : res (list ipt * vmesh) :=
  let '(ns, m) := st in
  let ctr := add3 (vc_centroid c) (vc_pos c) in
  do vs <- mmap (fun q => grid_point dx (add3 ctr (half3 q))) (vc_pts c);
  do _ <- assert (4 <=? length vs);
  do (ns, ids) <- updateMeshVertices ns vs;
  do _ <- assert (4 <=? length (vc_faces c));
  do m <- mfold (fun m f => do fn <- face_nodes ids f; insertFaceInfo (vc_pid c) m fn) (vc_faces c) m;
  Ok (ns, m).

(* points as triples *)
Fixpoint triples (l : list Q) : list p3 :=
  match l with x :: y :: z :: t => (x, y, z) :: triples t | _ => [] end.
Definition in_box3 (lo hi p : p3) : bool :=
  Qle_bool (X3 lo) (X3 p) && Qle_bool (X3 p) (X3 hi) && Qle_bool (Y3 lo) (Y3 p) && Qle_bool (Y3 p) (Y3 hi) && Qle_bool (Z3 lo) (Z3 p) && Qle_bool (Z3 p) (Z3 hi).
Definition qmax2 (a b : Q) : Q := if Qlt_bool a b then b else a.
Definition isnil {A} (l : list A) : bool := match l with [] => true | _ => false end.
(* tessellate, lines 165-304; dx is degeneracy() *)
Definition tessellate (lib : voro) (dx : Q) (points : list Q) (lo hi : p3) (mesh0 : mesh Q) : res (mesh Q) :=
  let scale := qmax2 (X3 hi - X3 lo)%Q (qmax2 (Y3 hi - Y3 lo) (Z3 hi - Z3 lo))%Q in
  let fconv := (dx * scale)%Q in
  do _ <- assert (Qlt_bool (X3 lo) (X3 hi) && Qlt_bool (Y3 lo) (Y3 hi) && Qlt_bool (Z3 lo) (Z3 hi) && Qlt_bool 0 scale);
  do _ <- assert (length points mod 3 =? 0);
  let ps := triples points in
  do _ <- assert (forallb (in_box3 lo hi) ps);
  do _ <- assert (isnil (nodes mesh0) && isnil (cells mesh0) && isnil (faces mesh0) && isnil (faceCells mesh0));
  let gens := map (fun p => ((X3 p - X3 lo) / scale, (Y3 p - Y3 lo) / scale, (Z3 p - Z3 lo) / scale)%Q) ps in
  do _ <- assert (forallb (in_box3 (0, 0, 0)%Q (1, 1, 1)%Q) gens);
  do _ <- assert (vl_total lib gens =? length gens);
  do st <- mfold (read_vcell dx) (vl_cells lib gens) ([], mkV (repeat [] (length ps)) [] []);
  let '(ns, m) := st in
  Ok (mkMesh (flat_map (fun p => let '(x, y, z) := p in
                [inject_Z x * fconv + X3 lo; inject_Z y * fconv + Y3 lo; inject_Z z * fconv + Z3 lo]%Q) ns)
        (v_cells m) (v_faces m) (boundaryNodes mesh0) (boundaryFaces mesh0) (v_fcells m) (convexHull mesh0)
        (neighborDomains mesh0) (sharedNodes mesh0) (sharedFaces mesh0)).
