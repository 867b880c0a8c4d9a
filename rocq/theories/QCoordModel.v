(* Model of the class QuantizedCoordinates, src/QuantizedCoordinates.hh: an integer grid over a box
   around points.  D is Dimension, 2 or 3; coordinates are exact rationals, lists of length D.  One
   process (no HAVE_MPI).  The constructor with points (lines 82-98) cannot be instantiated: it
   calls initialize with one argument.  projectPoint (lines 334-343) is rayCircleIntersection
   (RayCircleModel.v) with the radius r_out. *)
From Verif Require Import Base PLCSpec BoxModel MeshEditorModel HullModel VoroModel.
From Coq Require Import QArith Qround.
Local Open Scope nat_scope.

(* lines 33-57; degeneracy and coordMax are not initialised by the constructor: None *)
Record coords := mkCoords { low_in : list Q; high_in : list Q; low_out : list Q; high_out : list Q; delta : Q; r_in : Q; r_out : Q;
  mid : list Q; deg : option Q; cmax : option Z; modified : bool; two : bool; plc_pts : list Q; plc_facets : list (list Z) }.
(* component j of a point, Point.hh lines 57-58 and 134-135; j < D in all uses *)
Definition at_ (p : list Q) (j : nat) : Q := nth j p 0%Q.
Definition tab (D : nat) (f : nat -> Q) : list Q := map f (seq 0 D).
(* the constructor, lines 68-79, and clear, lines 103-117 *)
Definition cleared (D : nat) (d : option Q) (m : option Z) : coords :=
  let z := tab D (fun _ => 0%Q) in mkCoords z z z z 0 0 0 z d m false false [] [].
Definition coords_new (D : nat) : coords := cleared D None None.
Definition coords_clear (D : nat) (q : coords) : coords := cleared D (deg q) (cmax q).
(* degeneracy(d), lines 123-126, and degeneracy(), line 122 *)
Definition set_degeneracy (d : Q) (q : coords) : coords :=
  mkCoords (low_in q) (high_in q) (low_out q) (high_out q) (delta q) (r_in q) (r_out q) (mid q) (Some d) (cmax q) true (two q) (plc_pts q) (plc_facets q).
Definition degeneracy (q : coords) : res Q := match deg q with Some d => Ok d | None => UB end.
(* infiniteRadius, line 136 *)
Definition infiniteRadius (q : coords) : Q := qmax (r_in q) (r_out q).

(* storeBoundsAsPLCData, lines 351-388: in space every facet is stored in row 0 *)
Definition corners (D : nat) (lo hi : list Q) : list Q :=
  match D with
  | 2 => [at_ lo 0; at_ lo 1; at_ hi 0; at_ lo 1; at_ hi 0; at_ hi 1; at_ lo 0; at_ hi 1]
  | _ => [at_ lo 0; at_ lo 1; at_ lo 2; at_ hi 0; at_ lo 1; at_ lo 2; at_ hi 0; at_ hi 1; at_ lo 2; at_ lo 0; at_ hi 1; at_ lo 2;
          at_ lo 0; at_ lo 1; at_ hi 2; at_ hi 0; at_ lo 1; at_ hi 2; at_ hi 0; at_ hi 1; at_ hi 2; at_ lo 0; at_ hi 1; at_ hi 2]
  end.
Definition sides (D : nat) : list (list Z) :=
  match D with
  | 2 => [[0; 1]; [1; 2]; [2; 3]; [3; 0]]%Z
  | _ => [[1; 5; 6; 2]; [0; 0; 0; 0]; [0; 0; 0; 0]; [0; 0; 0; 0]; [0; 0; 0; 0]; [0; 0; 0; 0]]%Z
  end.
(* computeCenterFromBounds, lines 393-400 *)
Definition center_of (D : nat) (lo hi : list Q) : res (list Q) :=
  do _ <- assert (forallb (fun j => Qle_bool (at_ lo j) (at_ hi j)) (seq 0 D));
  Ok (tab D (fun j => (1 # 2) * (at_ lo j + at_ hi j))%Q).
(* computeBoundsFromRadius, lines 427-437: low and high are in and out *)
Definition bounds_from_radius (D : nat) (r : Q) (c lo hi : list Q) : res (list Q * list Q) :=
  do _ <- assert (Qlt_bool 0 r);
  let lo' := tab D (fun j => qmin (at_ lo j) (at_ c j - r)%Q) in
  let hi' := tab D (fun j => qmax (at_ hi j) (at_ c j + r)%Q) in
  do _ <- assert (forallb (fun j => Qle_bool (at_ lo' j) (at_ hi' j)) (seq 0 D));
  Ok (lo', hi').
(* setMaximumCoordinate, lines 444-458: CoordHash is int (KeyTraits.hh line 16); dividing by zero gives
   a value that cannot be converted.  POLY_VERIFY2 ends the program. *)
Definition max_coord (size d : Q) : res Z :=
  if Qeq_bool d 0 then UB else
  do z <- as_int (inject_Z (Qceiling (size / d)));
  do _ <- assert (z <? 2 ^ 31 - 1)%Z;
  Ok z.

(* initialize, lines 146-190.  big is numeric_limits::max(). *)
Definition sphere_step (lo hi : list Q) (r : Q) (j : nat) : res Q :=   (* lines 170-177 *)
  do _ <- assert (Qle_bool (at_ lo j) (at_ hi j));
  let c := ((1 # 2) * (at_ hi j + at_ lo j))%Q in
  let r' := qmax r ((3 # 4) * (at_ hi j - at_ lo j))%Q in
  do _ <- assert (Qlt_bool (c - r') (at_ lo j) && Qlt_bool (at_ hi j) (c + r'));
  Ok r'.
Definition initialize (D : nat) (big : Q) (points : list Q) (d : Q) (q : coords) : res coords :=
  do (lo, hi) <- local_box D big points;
  do c <- center_of D lo hi;
  do r <- mfold (sphere_step lo hi) (seq 0 D) 0%Q;
  do (lo', hi') <- bounds_from_radius D r c lo hi;
  do m <- max_coord (2 * r) d;
  Ok (mkCoords lo' hi' lo' hi' d r r c (Some d) (Some m) false false (corners D lo' hi') (sides D)).

(* expand with bounds, lines 208-270 *)
Definition half_step (plow phigh : list Q) (q : coords) (h : Q) (j : nat) : res Q :=   (* lines 224-232 *)
  do _ <- assert (Qle_bool (at_ plow j) (at_ phigh j));
  do _ <- assert (Qle_bool (at_ (mid q) j) (qmax (at_ phigh j) (at_ (high_out q) j)));
  do _ <- assert (Qle_bool (qmin (at_ plow j) (at_ (low_out q) j)) (at_ (mid q) j));
  let h := qmax h (qmax (at_ phigh j) (at_ (high_out q) j) - at_ (mid q) j)%Q in
  Ok (qmax h (at_ (mid q) j - qmin (at_ plow j) (at_ (low_out q) j))%Q).
Definition expand_bounds (D : nat) (plow phigh : list Q) (twoboxes : bool) (q : coords) : res coords :=
  do _ <- assert (negb (length (plc_pts q) =? 0) && negb (length (plc_facets q) =? 0));
  do _ <- assert (negb (Qeq_bool (r_out q) 0));
  do _ <- assert (forallb (fun j => Qle_bool (at_ plow j) (at_ phigh j)) (seq 0 D));
  do h <- mfold (half_step plow phigh q) (seq 0 D) 0%Q;
  let r := qmax (r_out q) (3 * h) in
  let z := tab D (fun _ => 0%Q) in              (* line 221: low_new and high_new are the origin *)
  do (lo, hi) <- bounds_from_radius D r (mid q) z z;
  do q' <- (if twoboxes then
      Ok (mkCoords (low_in q) (high_in q) lo hi (delta q) (r_in q) r (mid q) (deg q) (cmax q) false true (plc_pts q) (plc_facets q))
    else
      do d <- degeneracy q;
      do m <- max_coord (2 * r) d;
      Ok (mkCoords lo hi lo hi (delta q) r r (mid q) (deg q) (Some m) false false (plc_pts q) (plc_facets q)));
  do _ <- assert (Qlt_bool 0 (r_out q'));
  Ok q'.
(* expand with points, lines 195-205 *)
Definition expand (D : nat) (big : Q) (points : list Q) (twoboxes : bool) (q : coords) : res coords :=
  do (plow, phigh) <- local_box D big points;
  expand_bounds D plow phigh twoboxes q.

(* isInner, lines 297-307 *)
Definition isInner (D : nat) (q : coords) (p : list Q) : bool :=
  if negb (two q) then true
  else forallb (fun j => Qle_bool (at_ (low_in q) j) (at_ p j) && Qle_bool (at_ p j) (at_ (high_in q) j)) (seq 0 D).
(* quantize, lines 313-317; the point is made by Point.hh lines 39-45 and 115-123 *)
Definition quantize (D : nat) (q : coords) (p : list Q) : res (list Z) :=
  do _ <- assert (isInner D q p);
  do _ <- assert (negb (modified q));
  if Qeq_bool (delta q) 0 then UB else
  mmap (fun j => as_int ((at_ p j - at_ (low_in q) j) / delta q + (1 # 2))%Q) (seq 0 D).
(* dequantize, lines 323-332 *)
Definition dequantize (D : nat) (q : coords) (z : list Z) : res (list Q) :=
  do _ <- assert (negb (modified q));
  let p := tab D (fun j => at_ (low_in q) j + inject_Z (nth j z 0%Z) * delta q)%Q in
  do _ <- assert (isInner D q p);
  Ok p.

(* a history of calls *)
Inductive op := Initialize (points : list Q) (d : Q) | Expand (points : list Q) (twoboxes : bool) | Degeneracy (d : Q) | Clear.
Definition step (D : nat) (big : Q) (q : coords) (o : op) : res coords :=
  match o with
  | Initialize ps d => initialize D big ps d (coords_clear D q)
  | Expand ps t => expand D big ps t q
  | Degeneracy d => Ok (set_degeneracy d q)
  | Clear => Ok (coords_clear D q)
  end.
Definition history (D : nat) (big : Q) (ops : list op) : res coords := mfold (step D big) ops (coords_new D).
