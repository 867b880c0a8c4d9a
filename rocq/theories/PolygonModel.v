(* Model of class Polygon, src/Polygon.hh, with exact rational coordinates in place of double.
   Distances are kept squared: they are only compared with each other.  FLT_MAX, squared, is a
   parameter. *)
From Verif Require Import Base SerializeModel Plane MeshEditorModel WithinModel.
From Coq Require Import QArith ZArith.
Local Open Scope Q_scope.

(* the constructors, lines 17-33; a polygon is its array m_vertices *)
Definition polygon (vertices : list Q) : res (list Q) :=
  do _ <- assert (length vertices mod 2 =? 0)%nat;
  do _ <- assert (3 <=? length vertices / 2)%nat;
  Ok vertices.
(* numVertices and numEdges, lines 39-42 *)
Definition polyEdges (vs : list Q) : nat := length vs / 2.

(* lines 46-47 *)
Inductive location := POINT_INSIDE | POINT_ON_VERTEX | POINT_ON_EDGE | POINT_OUTSIDE.
(* the straddling tests and the crossing x, lines 79-92, with v and v1 relative to the point *)
Definition r_crosses (v v1 : p2) : bool :=
  xorb (Qlt_bool 0 (snd v)) (Qlt_bool 0 (snd v1)) &&
  Qlt_bool 0 ((fst v * snd v1 - fst v1 * snd v) / (snd v1 - snd v)).
Definition l_crosses (v v1 : p2) : bool :=
  xorb (Qlt_bool (snd v) 0) (Qlt_bool (snd v1) 0) &&
  Qlt_bool ((fst v * snd v1 - fst v1 * snd v) / (snd v1 - snd v)) 0.
(* the loop over vertices, lines 62-93, and the verdict, lines 97-104 *)
Fixpoint query_loop (p : p2) (vs : list Q) (N : nat) (is : list nat) (Rcross Lcross : nat) : res location :=
  match is with
  | [] =>
      Ok (if negb (Rcross mod 2 =? Lcross mod 2)%nat then POINT_ON_EDGE
          else if (Rcross mod 2 =? 1)%nat then POINT_INSIDE else POINT_OUTSIDE)
  | i :: t =>
      do w <- vat vs 0 i;
      let v := (fst w - fst p, snd w - snd p) in
      if Qeq_bool (fst v) 0 && Qeq_bool (snd v) 0 then Ok POINT_ON_VERTEX
      else
        do w1 <- vat vs 0 ((i + N - 1) mod N);
        let v1 := (fst w1 - fst p, snd w1 - snd p) in
        query_loop p vs N t (if r_crosses v v1 then S Rcross else Rcross) (if l_crosses v v1 then S Lcross else Lcross)
  end.
(* queryPoint, lines 52-104 *)
Definition queryPoint (vs : list Q) (p : p2) : res location :=
  if (length vs =? 0)%nat then Ok POINT_OUTSIDE
  else query_loop p vs (length vs / 2) (seq 0 (length vs / 2)) 0 0.

Definition sdist2 (a b : p2) : Q := (fst a - fst b) * (fst a - fst b) + (snd a - snd b) * (snd a - snd b).
(* the point halfway between vertex i0 and the vertex taken for its successor, lines 131-133 and
   197-199; i0 is an int, and m_vertices.size() counts coordinates *)
Definition halfway (vs : list Q) (i0 : Z) : res p2 :=
  if (i0 <? 0)%Z || (length vs =? 0)%nat then UB
  else
    let i := Z.to_nat i0 in
    do a <- vat vs 0 i;
    do b <- vat vs 0 ((i + 1) mod length vs);
    Ok ((1 # 2) * (fst a + fst b), (1 # 2) * (snd a + snd b)).
(* distanceToEdge, lines 194-204, squared *)
Definition distanceToEdge (vs : list Q) (p : p2) (i0 : Z) : res Q :=
  do m <- halfway vs i0; Ok (sdist2 p m).
(* nearestEdge, lines 108-122; the state is (minDist, edge) *)
Definition nearestEdge (fltmax : Q) (vs : list Q) (p : p2) : res Z :=
  do (_, edge) <- mfold (fun '(minDist, edge) e =>
      do dist <- distanceToEdge vs p (Z.of_nat e);
      Ok (if Qlt_bool dist minDist then (dist, Z.of_nat e) else (minDist, edge)))
    (seq 0 (polyEdges vs)) (fltmax, (-1)%Z);
  Ok edge.
(* nearestEdgePosition, lines 125-132 *)
Definition nearestEdgePosition (fltmax : Q) (vs : list Q) (p : p2) : res p2 :=
  do e <- nearestEdge fltmax vs p; halfway vs e.

(* a / b in floating point, for b >= 0 *)
Inductive quotient := Fin (q : Q) | PosInf | NegInf | NaN.
Definition fdiv (a b : Q) : quotient :=
  if Qeq_bool b 0 then (if Qlt_bool 0 a then PosInf else if Qlt_bool a 0 then NegInf else NaN) else Fin (a / b).
(* lines 158-161: t < 0.0 and t > 1.0 are false of NaN *)
Definition clamp (t : quotient) : option Q :=
  match t with
  | Fin q => Some (if Qlt_bool q 0 then 0 else if Qlt_bool 1 q then 1 else q)
  | PosInf => Some 1
  | NegInf => Some 0
  | NaN => None
  end.
(* project(point, edge, projection), lines 137-166.  None: both results are NaN.  What lines
   147-152 write in the degenerate case is overwritten by lines 164-165. *)
Definition project (vs : list Q) (p : p2) (edge : Z) : res (option p2) :=
  do _ <- assert (0 <=? edge)%Z;
  do _ <- assert (edge <? Z.of_nat (polyEdges vs))%Z;
  do v1 <- vat vs 0 (Z.to_nat edge);
  do v2 <- vat vs 0 (Z.to_nat edge + 1);
  let l2 := (fst v2 - fst v1) * (fst v2 - fst v1) + (snd v2 - snd v2) * (snd v2 - snd v2) in
  let t := clamp (fdiv ((fst p - fst v1) * (fst v2 - fst v1) + (snd p - snd v1) * (snd v2 - snd v1)) l2) in
  Ok (match t with
      | None => None
      | Some t => Some (fst v1 + t * (fst v2 - fst v1), snd v1 + t * (snd v2 - snd v1))
      end).
(* project(point, projection), lines 169-189; None: the result is left as it was *)
Definition projectNearest (fltmax : Q) (vs : list Q) (p : p2) : res (option p2) :=
  do (_, r) <- mfold (fun '(minDist, r) e =>
      do proj <- project vs p (Z.of_nat e);
      Ok (match proj with
          | None => (minDist, r)
          | Some q => if Qlt_bool (sdist2 p q) minDist then (sdist2 p q, Some q) else (minDist, r)
          end))
    (seq 0 (polyEdges vs)) (fltmax, None);
  Ok r.

(* closestIntersection, lines 210-245; the state is None while result is -1: minPhi is then
   FLT_MAX, above 1 *)
Definition intersection_step (vs : list Q) (n : nat) (s1 s2 : p2) (st : option (nat * Q * p2)) (i : nat) : res (option (nat * Q * p2)) :=
  let sx := fst s2 - fst s1 in
  let sy := snd s2 - snd s1 in
  do a <- vat vs 0 i;
  do b <- vat vs 0 ((i + 1) mod n);
  let ex := fst b - fst a in
  let ey := snd b - snd a in
  let esx := fst s1 - fst a in
  let esy := snd s1 - snd a in
  let thpt := ey * sx - ex * sy in
  if negb (Qeq_bool thpt 0) then
    let phia := (ex * esy - ey * esx) / thpt in
    let phib := (sx * esy - sy * esx) / thpt in
    if Qle_bool 0 phia && Qle_bool phia 1 && Qle_bool 0 phib && Qle_bool phib 1 &&
       match st with None => true | Some (_, best, _) => Qlt_bool phia best end
    then Ok (Some (i, phia, (fst s1 + phia * sx, snd s1 + phia * sy)))
    else Ok st
  else Ok st.
Definition closestIntersection (vs : list Q) (s1 s2 : p2) : res (option (nat * p2)) :=
  do st <- mfold (intersection_step vs (length vs / 2) s1 s2) (seq 0 (length vs / 2)) None;
  Ok (match st with None => None | Some (i, _, q) => Some (i, q) end).
