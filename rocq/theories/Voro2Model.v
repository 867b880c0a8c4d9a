(* Model of VoroPP_2d::tessellate, src/VoroPP_2d.cc: what is read out of Voro++ in the plane.
   Coordinates are exact rationals in place of double; KeyTraits::Key is int.  The library is an
   argument, and so is the content of the set inside convexHull_2d, as in HullModel.v. *)
From Verif Require Import Base PLCSpec MeshModel Plane MeshEditorModel HullModel VoroModel.
From Coq Require Import QArith.
Local Open Scope nat_scope.

(* What the library tells of a cell (lines 241-257): pid, the position of the particle, the centroid,
   relative to that position, and pts, the vertices relative to that position and times two. *)
Record vcell2 := mkVcell2 { c2_pid : nat; c2_pos : p2; c2_centroid : p2; c2_pts : list p2 }.
Record voro2 := mkVoro2 { v2_total : list p2 -> nat; v2_cells : list p2 -> list vcell2 }.

(* CoordHash(max(0.0, min(numeric_limits<CoordHash>::max() - 1.0, v/dx + 0.5))), lines 261-262 *)
Definition qmin2 (a b : Q) : Q := if Qlt_bool b a then b else a.
Definition clamp (dx v : Q) : Z := trunc (qmax2 0 (qmin2 (inject_Z (2 ^ 31 - 2)) (v / dx + (1 # 2))%Q)).

(* distance<2, int>, polytope_geometric_utilities.hh lines 290-297, adds the squares in int *)
Definition too_far (a b : Z * Z) : bool :=
  (2 ^ 31 <=? (fst a - fst b) * (fst a - fst b) + (snd a - snd b) * (snd a - snd b))%Z.
Definition in_q (z : Z * Z) : p2 := (inject_Z (fst z), inject_Z (snd z)).
(* convexHull_2d(vertices, ilow, CoordHash(1)), line 266: the model of the hull, with corner 0 and
   step 1, after the distances that are computed in int (convexHull_2d.hh line 102; one or two points
   have returned before).  Its tests on integers are those on rationals: collinear works in double,
   and a distance cut to an integer is below 1 when it was. *)
Fixpoint distances (z0 : Z * Z) (l : list (Z * Z)) : res unit :=
  match l with
  | [] => Ok tt
  | z :: t => if too_far z0 z then UB else if nearer (in_q z0) (in_q z) 1 then distances z0 t else Ok tt
  end.
Definition int_hull (fill : list hpt -> list hpt) (zs : list (Z * Z)) : res (list (list Z)) :=
  do _ <- (if length zs <=? 2 then Ok tt else match zs with z0 :: t => distances z0 t | [] => Ok tt end);
  do hs <- hpoints (map in_q zs) (0, 0)%Q 1;
  convexHull_2d (map in_q zs) (0, 0)%Q 1 (fill hs).

(* One cell, lines 239-303.  updateMeshVertices (lines 29-75) is that of VoroModel.v with a third
   coordinate 0, for which only 0 is tried; insertFaceInfo (lines 80-124) with hashFace (lines 129-133),
   the pair of the nodes in order, is that of VoroModel.v for a face with two nodes. *)
Definition read_vcell2 (fill : list hpt -> list hpt) (dx : Q) (st : list ipt * vmesh) (c : vcell2) : res (list ipt * vmesh) :=
  let '(ns, m) := st in
  let xc := (fst (c2_centroid c) + fst (c2_pos c))%Q in let yc := (snd (c2_centroid c) + snd (c2_pos c))%Q in
  do _ <- assert (3 <=? length (c2_pts c));
  let zs := map (fun q => (clamp dx (xc + (1 # 2) * fst q)%Q, clamp dx (yc + (1 # 2) * snd q)%Q)) (c2_pts c) in
  do fs <- int_hull fill zs;
  do _ <- assert (length fs <=? length zs);
  do hv <- mmap (fun f => do k <- get f 0; do z <- get zs (Z.to_nat k); Ok (fst z, snd z, 0%Z)) fs;
  do (ns, ids) <- updateMeshVertices ns hv;
  let nv := length hv in
  do m <- mfold (fun m k =>
      do i <- get ids k; do j <- get ids ((k + 1) mod nv);
      do _ <- assert (i <? length ns); do _ <- assert (j <? length ns); do _ <- assert (negb (i =? j));
      insertFaceInfo (c2_pid c) m [i; j]) (seq 0 nv) m;
  Ok (ns, m).

Fixpoint pairs2 (l : list Q) : list p2 := match l with x :: y :: t => (x, y) :: pairs2 t | _ => [] end.
Definition in_box2 (lo hi p : p2) : bool :=
  Qle_bool (fst lo) (fst p) && Qle_bool (fst p) (fst hi) && Qle_bool (snd lo) (snd p) && Qle_bool (snd p) (snd hi).
(* tessellate, lines 167-307; dx is degeneracy() *)
Definition tessellate2 (lib : voro2) (fill : list hpt -> list hpt) (dx : Q) (points : list Q) (lo hi : p2) (mesh0 : mesh Q) : res (mesh Q) :=
  let scale := qmax2 (fst hi - fst lo)%Q (snd hi - snd lo)%Q in
  let fconv := (dx * scale)%Q in
  do _ <- assert (length points mod 2 =? 0);
  let ps := pairs2 points in
  do _ <- assert (forallb (in_box2 lo hi) ps);
  do _ <- assert (isnil (nodes mesh0) && isnil (cells mesh0) && isnil (faces mesh0) && isnil (faceCells mesh0));
  do _ <- assert (Qlt_bool (fst lo) (fst hi) && Qlt_bool (snd lo) (snd hi) && Qlt_bool 0 scale);
  let gens := map (fun p => ((fst p - fst lo) / scale, (snd p - snd lo) / scale)%Q) ps in
  do _ <- assert (forallb (in_box2 (0, 0)%Q (1, 1)%Q) gens);
  do _ <- assert (v2_total lib gens =? length gens);
  do st <- mfold (read_vcell2 fill dx) (v2_cells lib gens) ([], mkV (repeat [] (length ps)) [] []);
  let '(ns, m) := st in
  Ok (mkMesh (flat_map (fun p => let '(x, y, _) := p in [inject_Z x * fconv + fst lo; inject_Z y * fconv + snd lo]%Q) ns)
        (v_cells m) (v_faces m) (boundaryNodes mesh0) (boundaryFaces mesh0) (v_fcells m) (convexHull mesh0)
        (neighborDomains mesh0) (sharedNodes mesh0) (sharedFaces mesh0)).
