(* Model of intersectBoundingBox of src/polytope_tessellator_utilities.hh, with exact rational
   coordinates in place of double. *)
From Verif Require Import Base SerializeModel Plane MeshEditorModel RayModel.
From Coq Require Import QArith Qabs ZArith.
Local Open Scope Q_scope.

(* lines 264-266: the point moved onto the side, one coordinate of which is read from the vertex
   with the number of the facet *)
Definition side_point (vs : list Q) (f : nat) (r : p2) : res p2 :=
  do x <- get vs (2 * f + (f + 1) mod 2);
  Ok (if Nat.even f then (fst r, x) else (x, snd r)).
(* i >= 0 and i < numVertices for an int stored in an unsigned: a negative one is too large *)
Definition stored (z : Z) (nv : nat) : bool := (0 <=? z)%Z && (z <? Z.of_nat nv)%Z.
(* one facet, lines 253-283; the state is (numIntersections, facetIntersections, result) *)
Definition box_hit (q1 q2 : p2) (nv : nat) (vs : list Q) (facets : list (list Z)) (tol : Q) (st : nat * list nat * list Q) (f : nat) : res (nat * list nat * list Q) :=
  let '(k, fi, r) := st in
  do fc <- get facets f;
  match fc with
  | [i; j] =>
      do _ <- assert (stored i nv);
      do _ <- assert (stored j nv);
      do a <- vertex2 vs i; do b <- vertex2 vs j;
      match segmentIntersection2D q1 q2 a b seg_tol with
      | None => Ok st
      | Some hit =>
          do p <- side_point vs f hit;
          do add <- (if (k =? 0)%nat then Ok true
                     else do l <- get r (length r - 1);
                       Ok (Qlt_bool tol (Qabs (fst p - (l - 1))) && Qlt_bool tol (Qabs (snd p - l))));
          Ok (if add : bool then (S k, fi ++ [f], r ++ [fst p; snd p]) else st)
      end
  | _ => Abort
  end.
(* intersectBoundingBox, lines 239-285; the two output vectors start empty *)
Definition intersectBoundingBox (q1 q2 : p2) (nv : nat) (vs : list Q) (facets : list (list Z)) (tol : Q) : res (nat * list nat * list Q) :=
  do ((k, fi), r) <- mfold (box_hit q1 q2 nv vs facets tol) (seq 0 (length facets)) (0%nat, [], []);
  do _ <- assert (k =? length r / 2)%nat;
  Ok (k, fi, r).
