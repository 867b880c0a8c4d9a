(* Model of the constructions of piecewise linear complexes: src/ReducedPLC.hh,
   src/makeBoxPLC.hh, plc_box (src/polytope_plc_canned_geometries.hh) and cellToReducedPLC
   (src/polytope_geometric_utilities.hh). *)
From Verif Require Import Base SerializeModel MeshModel QuantMeshModel.
Local Open Scope nat_scope.

(* std::set<int>, as its increasing list of members *)
Fixpoint zinsert (x : Z) (s : list Z) : list Z :=
  match s with
  | [] => [x]
  | y :: t => if (x <? y)%Z then x :: s else if (y <? x)%Z then y :: zinsert x t else s
  end.

(* std::map<int,int>::operator[] read access: a missing key reads 0 *)
Fixpoint zlookup (x : Z) (m : list (Z * Z)) : Z :=
  match m with [] => 0%Z | (k, v) :: t => if (k =? x)%Z then v else zlookup x t end.

(* std::copy(v.begin() + D*i, v.begin() + D*(i+1), back_inserter(..)): reading outside the
   array is undefined *)
Definition copy_point {A} (D : nat) (pts : list A) (i : Z) : res (list A) :=
  if (0 <=? i)%Z && (D * S (Z.to_nat i) <=? length pts)
  then Ok (firstn D (skipn (D * Z.to_nat i) pts)) else UB.

(* ReducedPLC(plc, allpoints), ReducedPLC.hh lines 33-57 *)
Definition reduced {A} (D : nat) (p : plc) (allpoints : list A) : res (rplc A) :=
  let indices := fold_left (fun s f => fold_left (fun s x => zinsert x s) f s) (facets p) [] in  (* 38-42 *)
  do st <- mfold (fun '(old2new, j, pts) i =>                                                    (* 43-51 *)
       do c <- copy_point D allpoints i;
       Ok (old2new ++ [(i, j)], (j + 1)%Z, pts ++ c)) indices ([], 0%Z, []);
  let '(old2new, _, pts) := st in
  Ok (mkRPLC (map (map (fun x => zlookup x old2new)) (facets p)) (holes p) pts).                 (* 52-56 *)

(* makeBoxPLC, 2D, makeBoxPLC.hh lines 15-29; [old] is the result argument as passed in.
   (resize of a longer points vector keeps 8 entries, all of which are assigned.)  A facet
   row that is too short for entries 0 and 1 is an out-of-range write. *)
Definition box2 {A} (old : rplc A) (xl yl xh yh : A) : res (rplc A) :=
  let rows := resize [0; 0]%Z 4 (rfacets old) in
  do fs <- mmap (fun '(i, row) =>
       do row <- set row 0 (Z.of_nat i);
       set row 1 (Z.of_nat ((i + 1) mod 4))) (combine (seq 0 4) rows);
  Ok (mkRPLC fs (rholes old) [xl; yl; xh; yl; xh; yh; xl; yh]).

(* plc_box<2>, polytope_plc_canned_geometries.hh lines 125-159 *)
Definition plc_box2 {A} (xl yl xh yh : A) : rplc A :=
  mkRPLC [[0; 1]; [1; 2]; [2; 3]; [3; 0]]%Z [] [xl; yl; xh; yl; xh; yh; xl; yh].

(* plc_box<3>, lines 161-245 *)
Definition plc_box3 {A} (x1 y1 z1 x2 y2 z2 : A) : rplc A :=
  mkRPLC [[0; 4; 5; 1]; [2; 3; 7; 6]; [0; 2; 6; 4]; [1; 5; 7; 3]; [0; 1; 3; 2]; [5; 4; 6; 7]]%Z []
    [x1; y1; z2;  x2; y1; z2;  x1; y2; z2;  x2; y2; z2;
     x1; y1; z1;  x2; y1; z1;  x1; y2; z1;  x2; y2; z1].

(* CellToReducedPLCFunctor<2>, polytope_geometric_utilities.hh lines 1401-1424 *)
Definition cell_plc2 {A} (m : mesh A) (icell : nat) : res (rplc A) :=
  do _ <- assert (negb (mesh_empty m));
  do _ <- assert (icell <? length (cells m));
  do c <- get (cells m) icell;
  let n := length c in
  do _ <- assert (3 <=? n);
  do st <- mfold (fun '(i, pts, fs) z =>
       do _ <- assert (positiveID z <? Z.of_nat (length (faces m)))%Z;
       do f <- get (faces m) (pid z);
       do _ <- assert (length f =? 2);
       do ip <- (if (z <? 0)%Z then get f 0 else get f 1);
       do _ <- assert (ip <? length (nodes m) / 2);
       do x <- get (nodes m) (2 * ip);
       do y <- get (nodes m) (2 * ip + 1);
       Ok (S i, pts ++ [x; y], fs ++ [[Z.of_nat i; Z.of_nat ((i + 1) mod n)]]))
     c (0, [], []);
  let '(_, pts, fs) := st in
  do _ <- assert (length pts / 2 =? n);
  Ok (mkRPLC fs [] pts).

(* std::map<int,int>::find / operator[] on node ids *)
Fixpoint nlookup (x : nat) (m : list (nat * nat)) : option nat :=
  match m with [] => None | (k, v) :: t => if k =? x then Some v else nlookup x t end.

(* one node of one face: lines 1440-1449 and 1455-1464 *)
Definition cell_node3 {A} (m : mesh A) (st : list (nat * nat) * list A * list Z) (ip : nat)
  : res (list (nat * nat) * list A * list Z) :=
  let '(old2new, pts, row) := st in
  do _ <- assert (ip <? length (nodes m) / 3);
  do st <- (match nlookup ip old2new with
            | Some _ => Ok (old2new, pts)
            | None => do x <- get (nodes m) (3 * ip);
                      do y <- get (nodes m) (3 * ip + 1);
                      do z <- get (nodes m) (3 * ip + 2);
                      Ok (old2new ++ [(ip, length pts / 3)], pts ++ [x; y; z])
            end);
  let '(old2new, pts) := st in
  Ok (old2new, pts, row ++ [Z.of_nat (match nlookup ip old2new with Some k => k | None => 0 end)]).

(* CellToReducedPLCFunctor<3>, lines 1429-1470 *)
Definition cell_plc3 {A} (m : mesh A) (icell : nat) : res (rplc A) :=
  do _ <- assert (icell <? length (cells m));
  do c <- get (cells m) icell;
  do st <- mfold (fun '(o2n, pts, fs) z =>
       do f <- get (faces m) (pid z);
       do r <- mfold (cell_node3 m) (if (z <? 0)%Z then rev f else f) (o2n, pts, []);
       let '(o2n, pts, row) := r in
       do _ <- assert (length row =? length f);
       Ok (o2n, pts, fs ++ [row])) c ([], [], []);
  let '(_, pts, fs) := st in
  do _ <- assert (length fs =? length c);
  Ok (mkRPLC fs [] pts).
