(* Model of bounding boxes (src/polytope_geometric_utilities.hh) and of the quantization of
   src/QuantizedTessellation2d.cc.  Coordinates are exact rationals in place of double. *)
From Verif Require Import Base SerializeModel MeshModel QuantMeshModel PLCSpec.
From Coq Require Import QArith.
Local Open Scope nat_scope.

(* std::min, std::max *)
Definition qmin (a b : Q) : Q := if Qlt_le_dec b a then b else a.
Definition qmax (a b : Q) : Q := if Qlt_le_dec a b then b else a.
Fixpoint zip {A} (f : A -> A -> A) (l l' : list A) : list A :=
  match l, l' with a :: t, b :: t' => f a b :: zip f t t' | _, _ => [] end.

(* computeBoundingBox without the reduction, lines 603-622: big is
   numeric_limits<RealType>::max(); the inner loop over the components of one point is a
   componentwise minimum/maximum *)
Definition local_box (D : nat) (big : Q) (pos : list Q) : res (list Q * list Q) :=
  do _ <- assert (length pos mod D =? 0);
  Ok (fold_left (fun '(lo, hi) i => let p := vertex D pos i in (zip qmin lo p, zip qmax hi p))
        (seq 0 (length pos / D)) (repeat big D, repeat (- big)%Q D)).

(* the reduction, lines 623-629: MPI_Allreduce with MPI_MIN and MPI_MAX over the boxes of all
   ranks (any combination order; here left to right); without MPI there is one rank *)
Definition all_reduce (boxes : list (list Q * list Q)) : list Q * list Q :=
  match boxes with
  | [] => ([], [])
  | b :: t => fold_left (fun b c => (zip qmin (fst b) (fst c), zip qmax (snd b) (snd c))) t b
  end.

(* computeBoundingBox with globalReduce, run on all ranks: every rank gets the same result *)
Definition global_box (D : nat) (big : Q) (ranks : list (list Q)) : res (list Q * list Q) :=
  do boxes <- mmap (local_box D big) ranks;
  Ok (all_reduce boxes).

(* expandBoundingBox without the reductions, lines 652-672: the loop over points repeats the
   same update n times *)
Definition expand_box (D : nat) (big : Q) (pos : list Q) (b : list Q * list Q) : res (list Q * list Q) :=
  do (low, high) <- local_box D big pos;
  Ok (fold_left (fun '(lo, hi) _ => (zip qmin lo low, zip qmax hi high)) (seq 0 (length pos / D)) b).

(* ---- quantization ---- *)
(* conversion of a real to an integer type: towards zero *)
Definition trunc (q : Q) : Z := Z.quot (Qnum q) (Zpos (Qden q)).

(* quantize, QuantizedTessellation2d.cc lines 76-81, one coordinate *)
Definition quantize1 (cmin cmax : Z) (xmin len : Q) (x : Q) : Z :=
  (cmin + trunc ((x - xmin) / (len / inject_Z (cmax - cmin))))%Z.
Definition quantize (f : frame) (p : Q * Q) : pt :=
  (quantize1 (cmin f) (cmax f) (fx f) (flen f) (fst p), quantize1 (cmin f) (cmax f) (fy f) (flen f) (snd p)).

(* coordMin, coordMax for IntType = int, lines 164-170; C++ division truncates *)
Definition coordMin : Z := Z.quot (- 2 ^ 31) 2.
Definition coordMax : Z := Z.quot (2 ^ 31 - 1) 2.

(* the frame around boundary points, lines 22-34 (the upper corner xmax is not used by
   quantize or dequantize) *)
Definition boundary_frame (big : Q) (boundary : list Q) : res frame :=
  do (lo, hi) <- local_box 2 big boundary;
  match lo, hi with
  | [xl; yl], [xh; yh] =>
      let len := qmax (xh - xl) (yh - yl) in
      Ok (mkFrame coordMin coordMax (xl - 2 * len)%Q (yl - 2 * len)%Q (5 * len)%Q)
  | _, _ => UB
  end.
(* the frame of a given box, lines 40-51 *)
Definition box_frame (xl yl xh yh : Q) : frame :=
  mkFrame coordMin coordMax xl yl (qmax (xh - xl) (yh - yl)).

(* unsigned and int are 32 bits wide: ix*dx is computed modulo 2^32 and converted back *)
Definition to_int (z : Z) : Z := ((z + 2 ^ 31) mod 2 ^ 32 - 2 ^ 31)%Z.

(* construct, lines 138-158: generators with their index, then the guards with the following
   indices *)
Definition guards (n : nat) : list (pt * nat) :=
  let dx := Z.quot (coordMax - coordMin) 2 in
  flat_map (fun ix =>
      let k := n + 4 * ix in
      let c := to_int (coordMin + Z.of_nat ix * dx) in
      [((c, coordMin), k); ((c, coordMax), k + 1); ((coordMin, c), k + 2); ((coordMax, c), k + 3)])
    (seq 0 3).
Definition construct (f : frame) (points : list Q) : res (list (pt * nat) * list (pt * nat)) :=
  do _ <- assert (length points mod 2 =? 0);
  let n := length points / 2 in
  Ok (map (fun i => (match vertex 2 points i with [x; y] => quantize f (x, y) | _ => (0, 0)%Z end, i)) (seq 0 n),
      guards n).
