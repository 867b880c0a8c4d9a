(* Generators in a line, and what their cells should be. *)
From Coq Require Import Reals List Permutation.
Import ListNotations.
From Verif Require Import RayCircleSpec.
Local Open Scope R_scope.

(* the order of std::sort on points: by x, then by y *)
Definition lex (a b : R * R) : Prop := fst a < fst b \/ (fst a = fst b /\ snd a < snd b).
(* a correct std::sort: the same entries, and no entry before a smaller one *)
Definition Sorts (srt : list ((R * R) * nat) -> list ((R * R) * nat)) : Prop := forall l,
  Permutation (srt l) l /\ forall i j a b, (i < j)%nat -> nth_error (srt l) i = Some a -> nth_error (srt l) j = Some b -> ~ lex (fst b) (fst a).
(* all points are on one straight line *)
Definition InLine (ps : list (R * R)) : Prop := exists a d, d <> (0, 0) /\ forall p, In p ps -> exists s, p = (fst a + s * fst d, snd a + s * snd d).
(* no two of the points are within 1e-100 of each other *)
Definition Apart (ps : list (R * R)) : Prop := forall i j p q, nth_error ps i = Some p -> nth_error ps j = Some q -> i <> j -> (/ 10 ^ 100) * (/ 10 ^ 100) <= len2_2 p q.
Definition InCircle (c : R * R) (r : R) (p : R * R) : Prop := len2_2 p c <= r * r.
(* on the circle, or inside it and nearly on it *)
Definition NearCircle (c : R * R) (r tol : R) (p : R * R) : Prop := r * r - tol < len2_2 p c <= r * r.

(* q is a weighted mean of the points: it is in the convex polygon they span *)
Fixpoint Mean (w : R) (ps : list (R * R)) (q : R * R) : Prop :=
  match ps with
  | [] => w = 0 /\ q = (0, 0)
  | p :: t => exists u q', 0 <= u /\ Mean (w - u) t q' /\ q = (u * fst p + fst q', u * snd p + snd q')
  end.
Definition Spans (ps : list (R * R)) (q : R * R) : Prop := Mean 1 ps q.
(* the consecutive pairs around a ring *)
Definition around {A} (l : list A) : list (A * A) := match l with [] => [] | a :: t => combine l (t ++ [a]) end.
(* twice the area of the triangle, positive when it turns left *)
Definition turn (a b c : R * R) : R := (fst b - fst a) * (snd c - snd a) - (snd b - snd a) * (fst c - fst a).
(* no generator is nearer to q than g is *)
Definition Nearest (gens : list (R * R)) (g q : R * R) : Prop := forall h, In h gens -> len2_2 q g <= len2_2 q h.
(* no third generator lies strictly between the two *)
Definition Next (gens : list (R * R)) (g h : R * R) : Prop := forall k t, In k gens -> 0 < t < 1 -> k <> (fst g + t * (fst h - fst g), snd g + t * (snd h - snd g)).
