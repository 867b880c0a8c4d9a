(* Model of constructive solid geometry in the plane, src/PLC_CSG_2d.hh, with exact rational
   coordinates in place of double.  eps is Line::EPSILON.  Nodes are never shared, so pointers to
   them are trees and what is deleted is left out. *)
From Verif Require Import Base Plane WithinModel MeshEditorModel.
From Coq Require Import QArith.
Local Open Scope nat_scope.

(* geometry::dot and length2, lines 43-44 *)
Definition dot2 (a b : p2) : Q := (fst a * fst b + snd a * snd b)%Q.
Definition sub2 (a b : p2) : p2 := (fst a - fst b, snd a - snd b)%Q.
Definition neg2 (a : p2) : p2 := (- fst a, - snd a)%Q.
Definition length2 (a : p2) : Q := (fst a * fst a + snd a * snd a)%Q.
(* lerp, lines 39-42, and interpolate, lines 145-150 *)
Definition lerp (a b : p2) (v : Q) : p2 := (fst a + (fst b - fst a) * v, snd a + (snd b - snd a) * v)%Q.

(* Line, lines 68-87 *)
Record line := Ln { ldir : p2; lnorm : p2; lw : Q }.
Definition no_line : line := Ln (0, 0)%Q (0, 0)%Q 0.
Definition mkline (a b : p2) : line :=
  let d := sub2 b a in let n := (snd d, - fst d)%Q in Ln d n (dot2 n a).
Definition line_ok (l : line) : bool := Qlt_bool 0 (length2 (lnorm l)) && Qlt_bool 0 (length2 (ldir l)).
Definition lflip (l : line) : line := Ln (neg2 (ldir l)) (neg2 (lnorm l)) (- lw l).
(* Segment, lines 92-108 *)
Record seg := Sg { sa : p2; sb : p2; sline : line }.
Definition mkseg (a b : p2) : seg := Sg a b (mkline a b).
Definition sflip (s : seg) : seg := Sg (sb s) (sa s) (lflip (sline s)).

(* splitSegment, lines 160-225: what one segment adds to the four lists.  The two ends of a
   spanning segment are on different sides, so the quotient is defined. *)
Inductive class := COLL | FRONT | BACK.
Definition classify (eps : Q) (l : line) (p : p2) : class :=
  let t := (dot2 (lnorm l) p - lw l)%Q in
  if Qlt_bool t (- eps) then BACK else if Qlt_bool eps t then FRONT else COLL.
Record four := Four { cfront : list seg; cback : list seg; front4 : list seg; back4 : list seg }.
Definition two (vs : list p2) : list seg := match vs with [a; b] => [mkseg a b] | _ => [] end.
Definition splitSegment (eps : Q) (l : line) (s : seg) : four :=
  match classify eps l (sa s), classify eps l (sb s) with
  | COLL, COLL => if Qlt_bool 0 (dot2 (lnorm l) (lnorm (sline s))) then Four [s] [] [] [] else Four [] [s] [] []
  | COLL, FRONT | FRONT, COLL | FRONT, FRONT => Four [] [] [s] []
  | COLL, BACK | BACK, COLL | BACK, BACK => Four [] [] [] [s]
  | ti, tj =>
      let vi := sa s in let vj := sb s in
      let f := match ti with BACK => [] | _ => [vi] end in
      let b := match ti with FRONT => [] | _ => [vi] end in
      let f := f ++ match tj with BACK => [] | _ => [vj] end in
      let b := b ++ match tj with FRONT => [] | _ => [vj] end in
      let t := ((lw l - dot2 (lnorm l) vi) / dot2 (lnorm l) (sub2 vj vi))%Q in
      let v := lerp vi vj t in
      Four [] [] (two (f ++ [v])) (two (b ++ [v]))
  end.

(* Node, lines 117-134: Null stands for a null pointer *)
Inductive tree := Null | Nd (segs : list seg) (front back : tree) (l : line).

(* invert, lines 288-295 *)
Fixpoint invert (t : tree) : tree :=
  match t with
  | Null => Null
  | Nd ss fr bk l => Nd (map sflip ss) (invert bk) (invert fr) (lflip l)
  end.
(* clipSegments, lines 299-313: both collinear lists are the front and the back list *)
Fixpoint clipSegments (eps : Q) (t : tree) (list_ : list seg) : list seg :=
  match t with
  | Null => list_
  | Nd _ fr bk l =>
      if negb (line_ok l) then list_ else
      let list_front := flat_map (fun s => let q := splitSegment eps l s in cfront q ++ front4 q) list_ in
      let list_back := flat_map (fun s => let q := splitSegment eps l s in cback q ++ back4 q) list_ in
      let list_front := match fr with Null => list_front | _ => clipSegments eps fr list_front end in
      let list_back := match bk with Null => [] | _ => clipSegments eps bk list_back end in
      list_front ++ list_back
  end.
(* clipTo, lines 317-322 *)
Fixpoint clipTo (eps : Q) (t other : tree) : tree :=
  match t with
  | Null => Null
  | Nd ss fr bk l => Nd (clipSegments eps other ss) (clipTo eps fr other) (clipTo eps bk other) l
  end.
(* allSegments, lines 325-334 *)
Fixpoint allSegments (t : tree) : list seg :=
  match t with
  | Null => []
  | Nd ss fr bk _ => ss ++ allSegments fr ++ allSegments bk
  end.
(* build, lines 350-366: on a new node, then on any node *)
Fixpoint build_new (eps : Q) (fuel : nat) (list_ : list seg) : res tree :=
  match list_ with
  | [] => Ok (Nd [] Null Null no_line)
  | s :: _ =>
      match fuel with
      | O => Hang
      | S fuel =>
          let l := sline s in
          let segs := flat_map (fun s => let q := splitSegment eps l s in cfront q ++ cback q) list_ in
          let list_front := flat_map (fun s => front4 (splitSegment eps l s)) list_ in
          let list_back := flat_map (fun s => back4 (splitSegment eps l s)) list_ in
          do fr <- match list_front with [] => Ok Null | _ => build_new eps fuel list_front end;
          do bk <- match list_back with [] => Ok Null | _ => build_new eps fuel list_back end;
          Ok (Nd segs fr bk l)
      end
  end.
Fixpoint build (eps : Q) (t : tree) (list_ : list seg) : res tree :=
  match t with
  | Null => build_new eps (length list_) list_
  | Nd ss fr bk l =>
      match list_ with
      | [] => Ok t
      | s :: _ =>
          let l := if line_ok l then l else sline s in
          let segs := flat_map (fun s => let q := splitSegment eps l s in cfront q ++ cback q) list_ in
          let list_front := flat_map (fun s => front4 (splitSegment eps l s)) list_ in
          let list_back := flat_map (fun s => back4 (splitSegment eps l s)) list_ in
          do fr <- match list_front with [] => Ok fr | _ => build eps fr list_front end;
          do bk <- match list_back with [] => Ok bk | _ => build eps bk list_back end;
          Ok (Nd (ss ++ segs) fr bk l)
      end
  end.
(* the constructor of Node, lines 368-371 *)
Definition new_node (eps : Q) (list_ : list seg) : res tree := build eps (Nd [] Null Null no_line) list_.

(* the operations on trees, lines 232-285; clone copies a tree *)
Definition tree_union (eps : Q) (a b : tree) : res tree :=
  let a := clipTo eps a b in
  let b := clipTo eps b a in
  let b := invert b in
  let b := clipTo eps b a in
  let b := invert b in
  do a <- build eps a (allSegments b);
  new_node eps (allSegments a).
Definition tree_subtract (eps : Q) (a b : tree) : res tree :=
  let a := invert a in
  let a := clipTo eps a b in
  let b := clipTo eps b a in
  let b := invert b in
  let b := clipTo eps b a in
  let b := invert b in
  do a <- build eps a (allSegments b);
  let a := invert a in
  new_node eps (allSegments a).
Definition tree_intersect (eps : Q) (a b : tree) : res tree :=
  let a := invert a in
  let b := clipTo eps b a in
  let b := invert b in
  let a := clipTo eps a b in
  let b := clipTo eps b a in
  do a <- build eps a (allSegments b);
  let a := invert a in
  new_node eps (allSegments a).

(* points and facets of a ReducedPLC<2>; holes are not looked at *)
Definition plc2 : Type := list Q * list (list nat).
(* ReducedPLCtoSegments, lines 377-394 *)
Definition to_segments (m : plc2) : res (list seg) :=
  mmap (fun f =>
      do _ <- assert (length f =? 2);
      do k1 <- get f 0; do k2 <- get f 1;
      do p <- vat (fst m) 0 k1; do q <- vat (fst m) 0 k2;
      Ok (mkseg p q)) (snd m).
(* ReducedPLCfromSegments, lines 399-417 *)
Definition from_segments (ss : list seg) : res plc2 :=
  do _ <- assert (3 <=? length ss);
  Ok (fold_left (fun '(pts, fs) s =>
        (pts ++ [fst (sa s); snd (sa s); fst (sb s); snd (sb s)], fs ++ [[length pts / 2; (length pts + 2) / 2]])) ss ([], [])).

(* the public interface, lines 424-464 *)
Definition csg (op : Q -> tree -> tree -> res tree) (eps : Q) (a b : plc2) : res plc2 :=
  do sa <- to_segments a; do a <- new_node eps sa;
  do sb <- to_segments b; do b <- new_node eps sb;
  do ab <- op eps a b;
  from_segments (allSegments ab).
Definition csg_union := csg tree_union.
Definition csg_intersect := csg tree_intersect.
Definition csg_subtract := csg tree_subtract.
