(* Model of the segment, ray and betweenness tests of src/polytope_geometric_utilities.hh and of
   src/intersect.hh, with exact rational coordinates in place of double.  The ray tests that need
   a square root are in RayCircleModel.v. *)
From Verif Require Import Base SerializeModel Plane MeshEditorModel.
From Coq Require Import QArith Qabs ZArith.
Local Open Scope Q_scope.

(* a result array the function may leave unwritten is an option *)

(* cross<2>, lines 389-394, the third component *)
Definition cross2 (u v : p2) : Q := fst u * snd v - snd u * fst v.
Definition sub2 (u v : p2) : p2 := (fst u - fst v, snd u - snd v).
(* segmentIntersection2D, lines 1193-1226 *)
Definition segmentIntersection2D (a b c d : p2) (tol : Q) : option p2 :=
  let r1 := sub2 b a in
  let r2 := sub2 d c in
  let ca := sub2 c a in
  let den := cross2 r1 r2 in
  if Qeq_bool den 0 then None
  else
    let p1 := cross2 ca r2 / den in
    let p2 := cross2 ca r1 / den in
    if Qle_bool (- tol) p1 && Qle_bool p1 (1 + tol) && Qle_bool (- tol) p2 && Qle_bool p2 (1 + tol) then
      Some (if Qlt_bool p1 tol then a
            else if Qlt_bool (1 - tol) p1 then b
            else if Qlt_bool p2 tol then c
            else if Qlt_bool (1 - tol) p2 then d
            else (fst c + p2 * fst r2, snd c + p2 * snd r2))
    else None.
(* the default value of tol, line 1198 *)
Definition seg_tol : Q := 1 # 100000000.

(* dot<3>, lines 365-370 *)
Definition dot3 (u v : p3) : Q := X3 u * X3 v + Y3 u * Y3 v + Z3 u * Z3 v.
Definition ahead3 (p n : p3) (t : Q) : p3 := (X3 p + t * X3 n, Y3 p + t * Y3 n, Z3 p + t * Z3 n).
(* rayPlaneIntersection, lines 695-730 *)
Definition rayPlaneIntersection (p_ray n_ray p_plane n_plane : p3) (tol : Q) : option p3 :=
  let ndots := dot3 n_ray n_plane in
  let delta := sub3 p_plane p_ray in
  if Qlt_bool (Qabs ndots) tol then
    if Qlt_bool (Qabs (dot3 p_ray delta)) tol then Some p_ray else None
  else
    let d := dot3 delta n_plane / ndots in
    if Qle_bool 0 d then Some (ahead3 p_ray n_ray d) else None.

(* distance<3>, squared: lines 303-310.  It is only compared with other distances. *)
Definition sdist3 (a b : p3) : Q := let v := sub3 a b in dot3 v v.
(* one of the six blocks of rayBoxIntersection.  The state is None while iplane is -1; minDist is
   then numeric_limits::max(), above every distance. *)
Definition box_plane (p_ray n_ray : p3) (tol : Q) (st : option (Z * Q * p3)) (pl : Z * p3 * p3) : option (Z * Q * p3) :=
  let '(id, corner, normal) := pl in
  match rayPlaneIntersection p_ray n_ray corner normal tol with
  | None => st
  | Some cand =>
      let d := sdist3 p_ray cand in
      match st with
      | None => Some (id, d, cand)
      | Some (_, best, _) => if Qlt_bool d best then Some (id, d, cand) else st
      end
  end.
(* rayBoxIntersection, lines 847-922 *)
Definition box_planes (lo hi : p3) : list (Z * p3 * p3) :=
  [(0%Z, lo, (1, 0, 0)); (1%Z, hi, (1, 0, 0)); (2%Z, lo, (0, 1, 0)); (3%Z, hi, (0, 1, 0)); (4%Z, lo, (0, 0, 1)); (5%Z, hi, (0, 0, 1))].
Definition rayBoxIntersection (p_ray n_ray lo hi : p3) (tol : Q) : option (Z * p3) :=
  match fold_left (box_plane p_ray n_ray tol) (box_planes lo hi) None with
  | None => None
  | Some (id, _, r) => Some (id, r)
  end.

(* between<Dimension>, lines 449-473, points as lists of Dimension coordinates *)
Definition zipsub (b a : list Q) : list Q := map (fun e => fst e - snd e) (combine b a).
Definition dotl (u v : list Q) : Q := sumf (fun e => fst e * snd e) (combine u v).
Definition between (a b c : list Q) (tol : Q) : bool :=
  let ab := zipsub b a in let ac := zipsub c a in let bc := zipsub c b in
  let ab2 := dotl ab ab in let ac2 := dotl ac ac in let bc2 := dotl bc bc in
  if Qle_bool (if Qlt_bool bc2 ac2 then bc2 else ac2) (tol * ab2) then true
  else if Qle_bool ab2 tol then false
  else let t := dotl ab ac in
    Qlt_bool 0 t && Qlt_bool (Qabs (t * t - ab2 * ac2)) (tol * ab2) && Qle_bool ac2 ab2.

(* collinear<Dimension>(a, b, c, tol), lines 426-444, for any dimension *)
Definition collinear_pts (a b c : list Q) (tol : Q) : bool :=
  let ab := zipsub b a in let ac := zipsub c a in
  let ab2 := dotl ab ab in let ac2 := dotl ac ac in
  if Qlt_bool ab2 tol || Qlt_bool ac2 tol then true
  else let d := dotl ab ac in
    Qlt_bool 1 tol || (Qlt_bool 0 tol && Qlt_bool ((1 - tol) * (1 - tol) * (ab2 * ac2)) (d * d)).
(* collinear(points, tol), lines 479-496: points as a list of lists of dim coordinates.  i runs up
   to the number of points; starting beyond it runs past the array *)
Definition collinear_cloud (dim : nat) (pts : list (list Q)) (tol : Q) : res bool :=
  let n := length pts in
  if (1 <? n)%nat then
    if (n <? dim)%nat then UB
    else mfold (fun ok i =>
           if ok : bool then
             do a <- get pts 0; do b <- get pts 1; do c <- get pts i; Ok (collinear_pts a b c tol)
           else Ok false) (seq dim (n - dim)) true
  else Ok true.

(* the coordinates at &vertices[2*i] *)
Definition vertex2 (vs : list Q) (z : Z) : res p2 :=
  if (z <? 0)%Z then UB else do x <- get vs (2 * Z.to_nat z); do y <- get vs (2 * Z.to_nat z + 1); Ok (x, y).
(* one facet, intersect.hh lines 37-62; the state is (numIntersections, result) with result in
   order *)
Definition intersect_facet (q1 q2 : p2) (vs : list Q) (st : nat * list p2) (f : list Z) : res (nat * list p2) :=
  match f with
  | [i; j] =>
      do a <- vertex2 vs i; do b <- vertex2 vs j;
      match segmentIntersection2D q1 q2 a b seg_tol with
      | None => Ok st
      | Some p =>
          let '(k, r) := st in
          do add <- (if (k =? 0)%nat then Ok true
                     else do l <- get r (length r - 1);
                       Ok (negb (Qeq_bool (fst p) (snd l - 1)) && negb (Qeq_bool (snd p) (snd l))));
          Ok (if add : bool then (S k, r ++ [p]) else st)
      end
  | _ => Abort
  end.
Definition intersect_facets (q1 q2 : p2) (vs : list Q) (fs : list (list Z)) (r : list p2) : res (nat * list p2) :=
  mfold (intersect_facet q1 q2 vs) fs (0%nat, r).
(* intersect, lines 84-104 *)
Definition intersect (q1 q2 : p2) (vs : list Q) (g : plc) (r : list p2) : res (nat * list p2) :=
  do st <- intersect_facets q1 q2 vs (facets g) r;
  mfold (fun st h => do st' <- intersect_facets q1 q2 vs h (snd st); Ok ((fst st + fst st')%nat, snd st')) (holes g) st.
