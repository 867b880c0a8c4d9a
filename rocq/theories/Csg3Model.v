(* Model of constructive solid geometry in space, src/PLC_CSG_3d.hh, with exact rational
   coordinates in place of double.  eps is Plane::EPSILON.  Nodes are never shared, so pointers to
   them are trees and what is deleted is left out. *)
From Verif Require Import Base PLCSpec Plane MeshEditorModel BoxModel HashModel RayModel Hull3Model.
From Coq Require Import QArith.
Local Open Scope nat_scope.

(* lerp, lines 42-47, and interpolate, lines 151-156; dot, length2 and cross, lines 50-53, are
   dot3 and cross3 *)
Definition lerp3 (a b : p3) (v : Q) : p3 :=
  (X3 a + (X3 b - X3 a) * v, Y3 a + (Y3 b - Y3 a) * v, Z3 a + (Z3 b - Z3 a) * v)%Q.

(* Plane, lines 76-94 *)
Record plane := Pl { pnorm : p3; pw : Q }.
Definition no_plane : plane := Pl (0, 0, 0)%Q 0.
Definition mkplane (a b c : p3) : plane := let n := cross3 (sub3 b a) (sub3 c a) in Pl n (dot3 n a).
Definition plane_ok (l : plane) : bool := Qlt_bool 0 (dot3 (pnorm l) (pnorm l)).
Definition pflip (l : plane) : plane := Pl (opp3 (pnorm l)) (- pw l).
(* Polygon, lines 100-114.  Polygons of fewer than three vertices are never made: lines 227-228
   and 392, 402-404. *)
Record poly := Pg { pverts : list p3; pplane : plane }.
Definition mkpoly (vs : list p3) : poly :=
  Pg vs (match vs with a :: b :: c :: _ => mkplane a b c | _ => no_plane end).
Definition poly_flip (p : poly) : poly := Pg (rev (pverts p)) (pflip (pplane p)).

(* splitPolygon, lines 166-232: what one polygon adds to the four lists *)
Inductive class := COPL | FRONT | BACK.
Definition side (l : plane) (p : p3) : Q := (dot3 (pnorm l) p - pw l)%Q.
Definition classify (eps : Q) (l : plane) (p : p3) : class :=
  if Qlt_bool (side l p) (- eps) then BACK else if Qlt_bool eps (side l p) then FRONT else COPL.
Definition is_front (c : class) : bool := match c with FRONT => true | _ => false end.
Definition is_back (c : class) : bool := match c with BACK => true | _ => false end.
Record four := Four { cfront : list poly; cback : list poly; front4 : list poly; back4 : list poly }.
(* lines 221-222: the ends of the edge are on different sides, so the quotient is defined *)
Definition cut_edge (l : plane) (vi vj : p3) : p3 :=
  lerp3 vi vj ((pw l - dot3 (pnorm l) vi) / dot3 (pnorm l) (sub3 vj vi))%Q.
(* lines 216-225, what the edge from vi to vj adds to f and to b *)
Definition crossing (eps : Q) (l : plane) (e : p3 * p3) : list p3 :=
  match classify eps l (fst e), classify eps l (snd e) with
  | FRONT, BACK | BACK, FRONT => [cut_edge l (fst e) (snd e)]
  | _, _ => []
  end.
Definition f_part (eps : Q) (l : plane) (e : p3 * p3) : list p3 :=
  (if is_back (classify eps l (fst e)) then [] else [fst e]) ++ crossing eps l e.
Definition b_part (eps : Q) (l : plane) (e : p3 * p3) : list p3 :=
  (if is_front (classify eps l (fst e)) then [] else [fst e]) ++ crossing eps l e.
Definition three (vs : list p3) : list poly := if 3 <=? length vs then [mkpoly vs] else [].
Definition splitPolygon (eps : Q) (l : plane) (p : poly) : four :=
  match existsb (fun v => is_front (classify eps l v)) (pverts p), existsb (fun v => is_back (classify eps l v)) (pverts p) with
  | false, false => if Qlt_bool 0 (dot3 (pnorm l) (pnorm (pplane p))) then Four [p] [] [] [] else Four [] [p] [] []
  | true, false => Four [] [] [p] []
  | false, true => Four [] [] [] [p]
  | true, true =>
      Four [] [] (three (flat_map (f_part eps l) (ring (pverts p)))) (three (flat_map (b_part eps l) (ring (pverts p))))
  end.

(* Node, lines 123-140: Null stands for a null pointer *)
Inductive tree := Null | Nd (polys : list poly) (front back : tree) (l : plane).

(* invert, lines 295-302 *)
Fixpoint invert (t : tree) : tree :=
  match t with
  | Null => Null
  | Nd ss fr bk l => Nd (map poly_flip ss) (invert bk) (invert fr) (pflip l)
  end.
(* clipPolygons, lines 306-320: both coplanar lists are the front and the back list *)
Fixpoint clipPolygons (eps : Q) (t : tree) (list_ : list poly) : list poly :=
  match t with
  | Null => list_
  | Nd _ fr bk l =>
      if negb (plane_ok l) then list_ else
      let list_front := flat_map (fun s => let q := splitPolygon eps l s in cfront q ++ front4 q) list_ in
      let list_back := flat_map (fun s => let q := splitPolygon eps l s in cback q ++ back4 q) list_ in
      let list_front := match fr with Null => list_front | _ => clipPolygons eps fr list_front end in
      let list_back := match bk with Null => [] | _ => clipPolygons eps bk list_back end in
      list_front ++ list_back
  end.
(* clipTo, lines 324-329 *)
Fixpoint clipTo (eps : Q) (t other : tree) : tree :=
  match t with
  | Null => Null
  | Nd ss fr bk l => Nd (clipPolygons eps other ss) (clipTo eps fr other) (clipTo eps bk other) l
  end.
(* allPolygons, lines 332-341 *)
Fixpoint allPolygons (t : tree) : list poly :=
  match t with
  | Null => []
  | Nd ss fr bk _ => ss ++ allPolygons fr ++ allPolygons bk
  end.
(* build, lines 357-373: on a new node, then on any node *)
Fixpoint build_new (eps : Q) (fuel : nat) (list_ : list poly) : res tree :=
  match list_ with
  | [] => Ok (Nd [] Null Null no_plane)
  | s :: _ =>
      match fuel with
      | O => Hang
      | S fuel =>
          let l := pplane s in
          let polys := flat_map (fun s => let q := splitPolygon eps l s in cfront q ++ cback q) list_ in
          let list_front := flat_map (fun s => front4 (splitPolygon eps l s)) list_ in
          let list_back := flat_map (fun s => back4 (splitPolygon eps l s)) list_ in
          do fr <- match list_front with [] => Ok Null | _ => build_new eps fuel list_front end;
          do bk <- match list_back with [] => Ok Null | _ => build_new eps fuel list_back end;
          Ok (Nd polys fr bk l)
      end
  end.
Fixpoint build (eps : Q) (t : tree) (list_ : list poly) : res tree :=
  match t with
  | Null => build_new eps (length list_) list_
  | Nd ss fr bk l =>
      match list_ with
      | [] => Ok t
      | s :: _ =>
          let l := if plane_ok l then l else pplane s in
          let polys := flat_map (fun s => let q := splitPolygon eps l s in cfront q ++ cback q) list_ in
          let list_front := flat_map (fun s => front4 (splitPolygon eps l s)) list_ in
          let list_back := flat_map (fun s => back4 (splitPolygon eps l s)) list_ in
          do fr <- match list_front with [] => Ok fr | _ => build eps fr list_front end;
          do bk <- match list_back with [] => Ok bk | _ => build eps bk list_back end;
          Ok (Nd (ss ++ polys) fr bk l)
      end
  end.
(* the constructor of Node, lines 375-378 *)
Definition new_node (eps : Q) (list_ : list poly) : res tree := build eps (Nd [] Null Null no_plane) list_.

(* the operations on trees, lines 235-292; clone, lines 343-351, copies a tree *)
Definition tree_union (eps : Q) (a b : tree) : res tree :=
  let a := clipTo eps a b in
  let b := clipTo eps b a in
  let b := invert b in
  let b := clipTo eps b a in
  let b := invert b in
  do a <- build eps a (allPolygons b);
  new_node eps (allPolygons a).
Definition tree_subtract (eps : Q) (a b : tree) : res tree :=
  let a := invert a in
  let a := clipTo eps a b in
  let b := clipTo eps b a in
  let b := invert b in
  let b := clipTo eps b a in
  let b := invert b in
  do a <- build eps a (allPolygons b);
  let a := invert a in
  new_node eps (allPolygons a).
Definition tree_intersect (eps : Q) (a b : tree) : res tree :=
  let a := invert a in
  let b := clipTo eps b a in
  let b := invert b in
  let a := clipTo eps a b in
  let b := clipTo eps b a in
  do a <- build eps a (allPolygons b);
  let a := invert a in
  new_node eps (allPolygons a).

(* points and facets of a ReducedPLC<3>; holes are not looked at *)
Definition plc3 : Type := list Q * list (list nat).
Definition point_at (coords : list Q) (k : nat) : res p3 :=
  do x <- get coords (3 * k); do y <- get coords (3 * k + 1); do z <- get coords (3 * k + 2); Ok (x, y, z).
(* ReducedPLCtoPolygons, lines 386-409.  (j + 1) % n is j + 1 *)
Definition facet_polygons (coords : list Q) (f : list nat) : res (list poly) :=
  let n := length f in
  do _ <- assert (3 <=? n);
  do k1 <- get f 0;
  mmap (fun j =>
    do k2 <- get f j; do k3 <- get f (S j);
    do a <- point_at coords k1; do b <- point_at coords k2; do c <- point_at coords k3;
    Ok (mkpoly [a; b; c])) (seq 1 (n - 2)).
Definition to_polygons (m : plc3) : res (list poly) :=
  do _ <- assert (4 <=? length (snd m));
  do ps <- mmap (facet_polygons (fst m)) (snd m);
  Ok (concat ps).

(* ReducedPLCfromPolygons, lines 430-539. *)
Definition min3 (a b : p3) : p3 := (qmin (X3 a) (X3 b), qmin (Y3 a) (Y3 b), qmin (Z3 a) (Z3 b)).
Definition max3 (a b : p3) : p3 := (qmax (X3 a) (X3 b), qmax (Y3 a) (Y3 b), qmax (Z3 a) (Z3 b)).
Definition l3 (p : p3) : list Q := [X3 p; Y3 p; Z3 p].
(* the bounding box, lines 439-454 *)
Definition box_step (st : p3 * p3) (p : poly) : res (p3 * p3) :=
  do _ <- assert (3 <=? length (pverts p));
  Ok (fold_left (fun bx v => (min3 (fst bx) v, max3 (snd bx) v)) (pverts p) st).
Definition box_of (polys : list poly) : res (p3 * p3) :=
  do _ <- assert (4 <=? length polys);
  do p0 <- get polys 0; do v0 <- get (pverts p0) 0;
  do bx <- mfold box_step polys (v0, v0);
  let '(lo, hi) := bx in
  do _ <- assert (Qlt_bool (X3 lo) (X3 hi) && Qlt_bool (Y3 lo) (Y3 hi) && Qlt_bool (Z3 lo) (Z3 hi));
  Ok bx.
(* The first pass, lines 456-496.  points is the list of the hashes of the map point2id by id,
   nbrs the list of the pairs put into neighbors.  The assertion of line 476 compares the distance
   with 4 tol; here their squares are compared. *)
Record pass := Pass { hashes : list Z; coords : list Q; facets_ : list (list nat); nbrs : list (nat * nat) }.
Definition first_edge (k : keyty) (tol : Q) (lo hi : p3) (st : pass * list nat) (e : p3 * p3) : res (pass * list nat) :=
  let '(ps, newfacet) := st in
  let hash v := hashPosition k 3 (l3 v) (l3 lo) (l3 hi) (l3 lo) (l3 hi) tol in
  do hashj <- hash (fst e); do hashk <- hash (snd e);
  if Z.eqb hashj hashk then Ok st
  else
    let fix find (i : nat) (hs : list Z) : option nat :=
      match hs with [] => None | h :: hs => if Z.eqb h hashj then Some i else find (S i) hs end in
    match find 0 (hashes ps) with
    | Some id => Ok (ps, newfacet ++ [id])
    | None =>
        do pos <- unhashPosition k 3 (l3 lo) (l3 hi) (l3 lo) (l3 hi) hashj tol;
        let d := (nth 0 pos 0%Q, nth 1 pos 0%Q, nth 2 pos 0%Q) in
        do _ <- assert (Qlt_bool 0 tol && Qlt_bool (sdist3 d (fst e)) ((4 * tol) * (4 * tol))%Q);
        Ok (Pass (hashes ps ++ [hashj]) (coords ps ++ l3 (fst e)) (facets_ ps) (nbrs ps), newfacet ++ [length (hashes ps)])
    end.
Definition first_poly (k : keyty) (tol : Q) (lo hi : p3) (ps : pass) (p : poly) : res pass :=
  do r <- mfold (first_edge k tol lo hi) (ring (pverts p)) (ps, []);
  let '(ps, newfacet) := r in
  if 3 <=? length newfacet
  then Ok (Pass (hashes ps) (coords ps) (facets_ ps ++ [newfacet])
             (nbrs ps ++ flat_map (fun e => [e; (snd e, fst e)]) (ring newfacet)))
  else Ok ps.
(* neighbors[v], in increasing order *)
Definition neighbors (ps : pass) (v : nat) : list nat :=
  filter (fun w => existsb (fun e => (fst e =? v) && (snd e =? w)) (nbrs ps)) (seq 0 (length (hashes ps))).
Definition memb (v : nat) (l : list nat) : bool := existsb (Nat.eqb v) l.
(* the while loop, lines 514-532: every round adds all it checks to used *)
Fixpoint check_loop (fuel : nat) (ps : pass) (tol : Q) (a b : nat) (check used newfacet : list nat) : res (list nat) :=
  match check with
  | [] => Ok newfacet
  | _ =>
      match fuel with
      | O => Hang
      | S fuel =>
          do pa <- point_at (coords ps) a; do pb <- point_at (coords ps) b;
          do ha <- get (hashes ps) a; do hb <- get (hashes ps) b;
          do good <- mmap (fun v =>
              do pv <- point_at (coords ps) v; do hv <- get (hashes ps) v;
              Ok (if RayModel.between (l3 pa) (l3 pb) (l3 pv) tol && negb (Z.eqb hv ha) && negb (Z.eqb hv hb) then [v] else [])) check;
          let good := concat good in
          let used := used ++ check in
          let next := filter (fun w => existsb (fun v => memb w (neighbors ps v)) good && negb (memb w used)) (seq 0 (length (hashes ps))) in
          check_loop fuel ps tol a b next used (newfacet ++ good)
      end
  end.
(* std::sort by distance from a, lines 414-423 and 533; the squares of the distances are compared *)
Fixpoint insert_by (lt : nat -> nat -> bool) (x : nat) (l : list nat) : list nat :=
  match l with [] => [x] | y :: t => if lt y x then y :: insert_by lt x t else x :: l end.
Definition sort_by (lt : nat -> nat -> bool) (l : list nat) : list nat := fold_right (insert_by lt) [] l.
Definition dist_from (cs : list Q) (a v : nat) : Q :=
  let at_ i := (nth (3 * i) cs 0%Q, nth (3 * i + 1) cs 0%Q, nth (3 * i + 2) cs 0%Q) in sdist3 (at_ v) (at_ a).
(* the second pass, lines 500-537 *)
Definition second_facet (ps : pass) (tol : Q) (f : list nat) : res (list nat) :=
  let n := length f in
  do newfacet <- mfold (fun newfacet j =>
      do a <- get f j; do b <- get f ((j + 1) mod n);
      let check := filter (fun w => (memb w (neighbors ps a) || memb w (neighbors ps b)) && negb (w =? a) && negb (w =? b))
                     (seq 0 (length (hashes ps))) in
      do newfacet <- check_loop (S (length (hashes ps))) ps tol a b check [a; b] (newfacet ++ [a]);
      Ok (firstn (j + 1) newfacet ++
          sort_by (fun v w => Qlt_bool (dist_from (coords ps) a v) (dist_from (coords ps) a w)) (skipn (j + 1) newfacet)))
    (seq 0 n) [];
  do _ <- assert (n <=? length newfacet);
  Ok (if n <? length newfacet then newfacet else f).
Definition from_polygons (k : keyty) (tol : Q) (polys : list poly) : res plc3 :=
  do bx <- box_of polys;
  let '(lo, hi) := bx in
  do ps <- mfold (first_poly k tol lo hi) polys (Pass [] [] [] []);
  do _ <- assert ((length (coords ps) =? 3 * length (hashes ps)) && (length (facets_ ps) <=? length polys));
  do fs <- mmap (second_facet ps tol) (facets_ ps);
  Ok (coords ps, fs).

(* the public interface, lines 546-586: the polygons of the combined solid, then the PLC of them *)
Definition csg_polygons (op : Q -> tree -> tree -> res tree) (eps : Q) (a b : plc3) : res (list poly) :=
  do pa <- to_polygons a; do a <- new_node eps pa;
  do pb <- to_polygons b; do b <- new_node eps pb;
  do ab <- op eps a b;
  Ok (allPolygons ab).
Definition csg3 (op : Q -> tree -> tree -> res tree) (k : keyty) (eps : Q) (a b : plc3) : res plc3 :=
  do ps <- csg_polygons op eps a b;
  from_polygons k eps ps.
Definition csg_union := csg3 tree_union.
Definition csg_intersect := csg3 tree_intersect.
Definition csg_subtract := csg3 tree_subtract.
