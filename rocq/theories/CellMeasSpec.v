(* Area and centroid of a polygon, by its sides. *)
From Verif Require Import Base Plane PLCSpec.
From Coq Require Import QArith.

Definition cross (a b : p2) : Q := (fst a * snd b - fst b * snd a)%Q.
Definition sum_over (f : p2 -> p2 -> Q) (l : list (p2 * p2)) : Q := fold_right (fun ab t => f (fst ab) (snd ab) + t)%Q 0%Q l.
(* twice the area, and six times the area times the centroid *)
Definition area2 (ps : list p2) : Q := sum_over cross (ring ps).
Definition moment_x (ps : list p2) : Q := sum_over (fun a b => (fst a + fst b) * cross a b)%Q (ring ps).
Definition moment_y (ps : list p2) : Q := sum_over (fun a b => (snd a + snd b) * cross a b)%Q (ring ps).
