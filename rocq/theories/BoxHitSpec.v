(* Where a segment meets the sides of a box. *)
From Verif Require Import Base Plane WithinSpec HullSpec RaySpec.
From Coq Require Import QArith Qabs.
Local Open Scope Q_scope.

(* the corners counterclockwise from the low one, and the sides between them *)
Definition corners (lo hi : p2) : list p2 := [lo; (fst hi, snd lo); hi; (fst lo, snd hi)].
Definition flat (ps : list p2) : list Q := concat (map (fun p => [fst p; snd p]) ps).
Definition sides : list (list Z) := [[0; 1]; [1; 2]; [2; 3]; [3; 0]]%Z.
(* the ends of side f: bottom, right, top, left *)
Definition side (lo hi : p2) (f : nat) : p2 * p2 :=
  match f with
  | 0%nat => (lo, (fst hi, snd lo))
  | 1%nat => ((fst hi, snd lo), hi)
  | 2%nat => (hi, (fst lo, snd hi))
  | _ => ((fst lo, snd hi), lo)
  end.
(* p has the coordinate of side f *)
Definition OnSideLine (lo hi : p2) (f : nat) (p : p2) : Prop :=
  match f with
  | 0%nat => snd p = snd lo
  | 1%nat => fst p = fst hi
  | 2%nat => snd p = snd hi
  | _ => fst p = fst lo
  end.
Definition Touches (tol : Q) (q1 q2 lo hi : p2) (f : nat) : Prop := Touch tol q1 q2 (fst (side lo hi f)) (snd (side lo hi f)).
(* p is where the segment meets side f *)
Definition HitAt (tol : Q) (q1 q2 lo hi : p2) (f : nat) (p : p2) : Prop := OnSideLine lo hi f p /\ Touches tol q1 q2 lo hi f /\ MeetsAt tol q1 q2 (fst (side lo hi f)) (snd (side lo hi f)) p.
