(* Rays, circles and spheres. *)
From Coq Require Import Reals.
Local Open Scope R_scope.
Definition sq (x : R) : R := x * x.
Definition len2_3 (a b : R * R * R) : R := let '(ax, ay, az) := a in let '(bx, by_, bz) := b in sq (ax - bx) + sq (ay - by_) + sq (az - bz).
Definition len2_2 (a b : R * R) : R := sq (fst a - fst b) + sq (snd a - snd b).
Definition unit3 (n : R * R * R) : Prop := len2_3 n (0, 0, 0) = 1.
Definition unit2 (n : R * R) : Prop := len2_2 n (0, 0) = 1.
(* q is on the ray from p in direction n *)
Definition OnRay3 (p n q : R * R * R) : Prop := exists t, 0 <= t /\ let '(px, py, pz) := p in let '(nx, ny, nz) := n in q = (px + t * nx, py + t * ny, pz + t * nz).
Definition OnRay2 (p n q : R * R) : Prop := exists t, 0 <= t /\ q = (fst p + t * fst n, snd p + t * snd n).
