(* Model of the questions about a planar cell of voro_2d, cell_2d.cc.  The cell is that of CutModel.v.
   perimeter, edge_lengths and normals, which take square roots, and the printing are left out. *)
From Verif Require Import Base Plane MeshEditorModel CutModel.
From Coq Require Import QArith.
Local Open Scope nat_scope.

(* max_radius_squared, lines 70-79: pts up to 2*p are gone through in the order they are stored *)
Definition max_radius_squared (s : vcell) : res Q :=
  do v <- peek (vx s) 0;
  mfold (fun r i => do w <- peek (vx s) i; let q := (fst (fst w) * fst (fst w) + snd (fst w) * snd (fst w))%Q in Ok (if Qlt_bool r q then q else r))
    (seq 1 (vp s - 1)) (fst (fst v) * fst (fst v) + snd (fst v) * snd (fst v))%Q.

(* plane_intersects, lines 87-114 *)
Definition plane_intersects (x y rsq : Q) (s : vcell) : res bool :=
  do u <- vpos_at x y rsq s 0;
  if Qlt_bool u cut_tol then
    do up2 <- peek (vnext s) 0; do u2 <- vpos_at x y rsq s up2;
    do up3 <- peek (vprev s) 0; do u3 <- vpos_at x y rsq s up3;
    do f <- (if Qlt_bool u3 u2 then seek x y rsq s (vnext s) up3 (vp s) up2 u2 else seek x y rsq s (vprev s) up2 (vp s) up3 u3);
    match f with None => Ok false | Some (_, _) => Ok true end
  else Ok true.

Section Fan.
  Variable (s : vcell) (o : p2).
  Definition from_o (k : nat) : res p2 := do v <- peek (vx s) k; Ok (fst (fst v) - fst o, snd (fst v) - snd o)%Q.
  (* the loops of area and centroid, lines 338-343 and 358-366, from corner k on, until corner 0 *)
  Fixpoint fan (fuel : nat) (k : nat) (d1 : p2) (a cx cy : Q) : res (Q * Q * Q) :=
    if k =? 0 then Ok (a, cx, cy) else
    match fuel with
    | O => Hang
    | S n => do d2 <- from_o k;
        let area := (fst d1 * snd d2 - fst d2 * snd d1)%Q in
        do k' <- peek (vnext s) k;
        fan n k' d2 (a + area) (cx + area * (fst d1 + fst d2)) (cy + area * (snd d1 + snd d2))
    end.
End Fan.
Definition fan_of (s : vcell) : res (p2 * (Q * Q * Q)) :=
  do k <- peek (vnext s) 0; do v <- peek (vx s) 0;
  do d1 <- from_o s (fst v) k; do k <- peek (vnext s) k;
  do r <- fan s (fst v) (vp s) k d1 0 0 0; Ok (fst v, r).
(* area, lines 333-345 *)
Definition cell_area (s : vcell) : res Q :=
  if vp s =? 0 then Ok 0%Q else do (o, r) <- fan_of s; let '(a, _, _) := r in Ok ((1 # 8) * a)%Q.
(* centroid, lines 349-370; a division by 0 gives no number *)
Definition cell_centroid (s : vcell) : res p2 :=
  if vp s =? 0 then Ok (0, 0)%Q else do (o, r) <- fan_of s;
  let '(a, cx, cy) := r in
  if Qeq_bool a 0 then UB else
  let t := ((1 # 3) / a)%Q in Ok ((1 # 2) * (fst o + cx * t), (1 # 2) * (snd o + cy * t))%Q.
