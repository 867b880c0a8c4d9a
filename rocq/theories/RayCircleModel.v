(* Model of raySphereIntersection and rayCircleIntersection of
   src/polytope_geometric_utilities.hh, with real numbers in place of double. *)
From Coq Require Import Reals.
From Verif Require Import Base NearModel.
Local Open Scope R_scope.

Notation rp3 := (R * R * R)%type.
Definition rsub3 (a b : rp3) : rp3 := let '(ax, ay, az) := a in let '(bx, by_, bz) := b in (ax - bx, ay - by_, az - bz).
Definition rdot3 (a b : rp3) : R := let '(ax, ay, az) := a in let '(bx, by_, bz) := b in ax * bx + ay * by_ + az * bz.
Definition rahead3 (p n : rp3) (t : R) : rp3 := let '(px, py, pz) := p in let '(nx, ny, nz) := n in (px + t * nx, py + t * ny, pz + t * nz).
(* distance<3>, lines 303-318 *)
Definition rdistance3 (a b : rp3) : R := sqrt (rdot3 (rsub3 a b) (rsub3 a b)).
Definition rle (a b : R) : bool := if Rle_dec a b then true else false.

(* raySphereIntersection, lines 743-778; it returns true whenever it returns *)
Definition raySphereIntersection (p n c : rp3) (r tol : R) : res rp3 :=
  do _ <- assert (rle (rdistance3 p c) r);
  do _ <- assert (rlt (Rabs (rdot3 n n - 1)) (/ 10 ^ 10));
  let rs0 := rsub3 p c in
  let b := 2 * rdot3 n rs0 in
  let cc := rdot3 rs0 rs0 - r * r in
  let d := b * b - 4 * cc in
  do _ <- assert (rle (- tol) d);
  if rlt d tol then Ok p
  else
    let d := sqrt d in
    let t := / 2 * Rmax (- b - d) (- b + d) in
    do _ <- assert (rle 0 t);
    let result := rahead3 p n t in
    do _ <- assert (rlt (Rabs (rdistance3 result c - r)) tol);
    Ok result.

Definition rsub2 (a b : pt2) : pt2 := (fst a - fst b, snd a - snd b).
Definition rdot2 (a b : pt2) : R := fst a * fst b + snd a * snd b.
Definition rahead2 (p n : pt2) (t : R) : pt2 := (fst p + t * fst n, snd p + t * snd n).
(* rayCircleIntersection, lines 791-826 *)
Definition rayCircleIntersection (p n c : pt2) (r tol : R) : res pt2 :=
  if rlt r (distance2 p c) then Ok p
  else
    do _ <- assert (rlt (Rabs (rdot2 n n - 1)) (/ 10 ^ 10));
    let rs0 := rsub2 p c in
    let b := rdot2 n rs0 in
    let d := b * b - rdot2 rs0 rs0 + r * r in
    do _ <- assert (rle (- tol) d);
    if rlt d tol then Ok p
    else
      let d := sqrt d in
      let t := Rmax (- b - d) (- b + d) in
      do _ <- assert (rle 0 t);
      Ok (rahead2 p n t).
