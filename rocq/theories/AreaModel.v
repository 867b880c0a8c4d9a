(* Model of the area, volume and centroid routines of src/polytope_geometric_utilities.hh.
   Coordinates are exact rationals. *)
From Verif Require Import Base SerializeModel MeshModel StdAlg MeshEditorModel Plane.
From Coq Require Import QArith Qabs.
Local Open Scope Q_scope.

(* mesh.nodes[2*n], mesh.nodes[2*n+1] *)
Definition node2 (m : mesh Q) (n : nat) : res p2 :=
  do x <- get (nodes m) (2 * n); do y <- get (nodes m) (2 * n + 1); Ok (x, y).
Definition node3 (m : mesh Q) (n : nat) : res p3 :=
  do x <- get (nodes m) (3 * n); do y <- get (nodes m) (3 * n + 1); do z <- get (nodes m) (3 * n + 2); Ok (x, y, z).

(* ---- computeCellCentroidAndSignedArea, lines 959-990 ---- *)
(* one face of the cell, lines 970-985; state: ccent[0], ccent[1], area *)
Definition area_step (m : mesh Q) (st : Q * Q * Q) (z : Z) : res (Q * Q * Q) :=
  let '(cx, cy, a) := st in
  do _ <- assert (pid z <? length (faces m))%nat;
  do f <- get (faces m) (pid z);
  do _ <- assert (length f =? 2)%nat;
  do n0 <- get f (if (z <? 0)%Z then 1 else 0)%nat;
  do n1 <- get f (if (z <? 0)%Z then 0 else 1)%nat;
  do _ <- assert ((n0 <? length (nodes m) / 2) && (n1 <? length (nodes m) / 2))%nat;
  do _ <- assert (negb (n0 =? n1))%nat;
  do p <- node2 m n0;
  do q <- node2 m n1;
  let d := fst p * snd q - snd p * fst q in
  Ok (cx + d * (fst p + fst q), cy + d * (snd p + snd q), a + d).
(* returns the centroid and the area; a division by zero, possible when tol is negative, gives
   0 here and not-a-number in the code *)
Definition cell_area (m : mesh Q) (ci : nat) (tol : Q) : res (p2 * Q) :=
  do _ <- assert (ci <? length (cells m))%nat;
  do c <- get (cells m) ci;
  do (cx, cy, a) <- mfold (area_step m) c (0, 0, 0);
  do _ <- assert (Qlt_bool tol (Qabs a));
  let area := a / 2 in
  Ok ((cx / (6 * area), cy / (6 * area)), area).

(* ---- computeCellCentroid, lines 927-953 ---- *)
Fixpoint vadd (a b : list Q) : list Q :=
  match a, b with x :: a, y :: b => (x + y) :: vadd a b | _, _ => [] end.
(* lines 937-940 *)
Definition cell_face_nodes (m : mesh Q) (c : list Z) : res (list nat) :=
  do fs <- mmap (fun z => get (faces m) (pid z)) c; Ok (concat fs).
(* lines 945-949 *)
Definition add_node (D : nat) (m : mesh Q) (acc : list Q) (n : nat) : res (list Q) :=
  do _ <- assert (n <? length (nodes m) / D)%nat;
  do p <- mmap (fun j => get (nodes m) (D * n + j)) (seq 0 D);
  Ok (vadd acc p).
Definition cell_centroid (D : nat) (m : mesh Q) (ci : nat) : res (list Q) :=
  do _ <- assert (ci <? length (cells m))%nat;
  do c <- get (cells m) ci;
  do ns <- cell_face_nodes m c;
  let u := unique (StdAlg.sort ns) in
  do s <- mfold (add_node D m) u (repeat 0 D);
  do _ <- assert (0 <? length u)%nat;
  Ok (map (fun x => x / inject_Z (Z.of_nat (length u))) s).

(* ---- computeFaceCentroidAndNormal, lines 995-1037 ---- *)
(* collinear with tol = 1e-10, written without square roots as in MeshEditorModel *)
Definition col3 (a b c : p3) : bool :=
  let tol := 1 # 10000000000 in
  let dot u v := X3 u * X3 v + Y3 u * Y3 v + Z3 u * Z3 v in
  let ab := sub3 b a in
  let ac := sub3 c a in
  if Qlt_bool (dot ab ab) tol || Qlt_bool (dot ac ac) tol then true
  else Qlt_bool ((1 - tol) * (1 - tol) * (dot ab ab * dot ac ac)) (dot ab ac * dot ab ac).
(* lines 1012-1024; state: the sum and the vertices selected for the normal *)
Definition fcent_step (m : mesh Q) (st : p3 * list p3) (n : nat) : res (p3 * list p3) :=
  let '((x, y, z), verts) := st in
  do _ <- assert (n <? length (nodes m) / 3)%nat;
  do p <- node3 m n;
  let more := match verts with
              | [] | [_] => true
              | [a; b] => negb (col3 a b p)
              | _ => false
              end in
  Ok ((x + X3 p, y + Y3 p, z + Z3 p), if more then verts ++ [p] else verts).
(* the centroid; the unit normal is not modelled (it needs a square root, cannot fail, and
   the volume does not use it) *)
Definition face_centroid (m : mesh Q) (fi : nat) : res p3 :=
  do _ <- assert (fi <? length (faces m))%nat;
  do f <- get (faces m) fi;
  let n := length f in
  do _ <- assert (3 <=? n)%nat;
  do (s, verts) <- mfold (fcent_step m) f ((0, 0, 0), []);
  do _ <- assert (length verts =? 3)%nat;
  let qn := inject_Z (Z.of_nat n) in
  Ok (X3 s / qn, Y3 s / qn, Z3 s / qn).

(* ---- tetrahedralVolumeAndCentroid6, lines 1269-1287 ---- *)
Definition cross3 (a b : p3) : p3 :=
  let '(ax, ay, az) := a in let '(bx, by_, bz) := b in
  (ay * bz - az * by_, az * bx - ax * bz, ax * by_ - ay * bx).
Definition dot3 (a b : p3) : Q := X3 a * X3 b + Y3 a * Y3 b + Z3 a * Z3 b.
Definition tet_volume6 (n1 n2 n3 n4 : p3) : Q := dot3 (cross3 (sub3 n3 n1) (sub3 n2 n1)) (sub3 n4 n1).
Definition tet_centroid (n1 n2 n3 n4 : p3) : p3 :=
  let c u := (1 # 4) * (u n1 + u n2 + u n3 + u n4) in (c X3, c Y3, c Z3).

(* ---- computeCellCentroidAndSignedVolume, lines 1292-1345 ---- *)
(* lines 1324-1337; state: ccent, cvol *)
Definition tet_step (m : mesh Q) (cmid fcent : p3) (f : list nat) (down : bool) (st : p3 * Q) (i : nat) : res (p3 * Q) :=
  let '((cx, cy, cz), v) := st in
  let nn := length f in
  let j := (if down then (i + nn - 1) mod nn else (i + 1) mod nn)%nat in
  do nj <- get f j;
  do ni <- get f i;
  do pj <- node3 m nj;
  do pi <- node3 m ni;
  let tv := tet_volume6 cmid pj pi fcent in
  let tc := tet_centroid cmid pj pi fcent in
  Ok ((cx + tv * X3 tc, cy + tv * Y3 tc, cz + tv * Z3 tc), v + tv).
(* lines 1311-1338 *)
Definition volume_step (m : mesh Q) (cmid : p3) (st : p3 * Q) (z : Z) : res (p3 * Q) :=
  do f <- get (faces m) (pid z);
  do fcent <- face_centroid m (pid z);
  let down := (z <? 0)%Z in
  let idx := seq 0 (length f) in
  mfold (tet_step m cmid fcent f down) (if down then rev idx else idx) st.
Definition cell_volume (m : mesh Q) (ci : nat) : res (p3 * Q) :=
  do _ <- assert (ci <? length (cells m))%nat;
  do c <- get (cells m) ci;
  do cm <- cell_centroid 3 m ci;
  let cmid := match cm with [x; y; z] => (x, y, z) | _ => (0, 0, 0) end in
  do (s, v) <- mfold (volume_step m cmid) c ((0, 0, 0), 0);
  do _ <- assert (negb (Qeq_bool v 0));
  Ok ((X3 s / v, Y3 s / v, Z3 s / v), v / 6).

(* ---- triangleVolume2 and tetrahedralVolume6, lines 1233-1265 ---- *)
Definition triangleVolume2 (a b c : p2) : Q :=
  let n12 := (fst b - fst a, snd b - snd a) in
  let n13 := (fst c - fst a, snd c - snd a) in
  fst n13 * snd n12 - snd n13 * fst n12.

(* computeCircumcenter, lines 1060-1075; orient2d is exact *)
Definition circumcenter (A B C : p2) : p2 :=
  let n p := fst p * fst p + snd p * snd p in
  let D := 2 * orient A B C in
  (orient (n A, snd A) (n B, snd B) (n C, snd C) / D, orient (fst A, n A) (fst B, n B) (fst C, n C) / D).
(* ---- circumcenters, lines 1083-1128; D = 0 gives infinities in the code, 0 here ---- *)
Definition circumcenter2d (A B C : p2) : p2 :=
  let n p := fst p * fst p + snd p * snd p in
  let D := 2 * (fst A * (snd B - snd C) + fst B * (snd C - snd A) + fst C * (snd A - snd B)) in
  ((n A * (snd B - snd C) + n B * (snd C - snd A) + n C * (snd A - snd B)) / D,
   (n A * (fst C - fst B) + n B * (fst A - fst C) + n C * (fst B - fst A)) / D).
Definition circumcenter3d (A B C D : p3) : res p3 :=
  let a := sub3 B A in let b := sub3 C A in let c := sub3 D A in
  let a2 := dot3 a a in let b2 := dot3 b b in let c2 := dot3 c c in
  let bc := cross3 b c in let ca := cross3 c a in let ab := cross3 a b in
  let denom := 2 * dot3 a bc in
  do _ <- assert (negb (Qeq_bool denom 0));
  let f u := u A + (a2 * u bc + b2 * u ca + c2 * u ab) / denom in
  Ok (f X3, f Y3, f Z3).
(* computeTriangleCircumcenter3d, lines 1135-1156 *)
Definition triangle_circumcenter3d (A B C : p3) : res (option p3) :=
  if col3 A B C then Ok None
  else
    let a := sub3 A C in let b := sub3 B C in
    let a2 := dot3 a a in let b2 := dot3 b b in
    let c := (a2 * X3 b - b2 * X3 a, a2 * Y3 b - b2 * Y3 a, a2 * Z3 b - b2 * Z3 a) in
    let d := cross3 a b in
    let e := cross3 c d in
    let d2 := dot3 d d in
    do _ <- assert (Qlt_bool 0 d2);
    let f u := (1 # 2) * u e / d2 + u C in
    Ok (Some (f X3, f Y3, f Z3)).
