(* Particles in a planar container. *)
From Verif Require Import Base Plane ContModel.
From Coq Require Import QArith Qabs.
Local Open Scope nat_scope.

(* as a container is made: a rectangle of positive size, in at least one block each way *)
Definition Made (c : cont) : Prop := (c_ax c < c_bx c)%Q /\ (c_ay c < c_by c)%Q /\ 0 < c_nx c /\ 0 < c_ny c /\ length (c_blocks c) = c_nx c * c_ny c.
(* lower edge of block i of n *)
Definition edge (lo hi : Q) (n i : nat) : Q := (lo + inject_Z (Z.of_nat i) * ((hi - lo) / inject_Z (Z.of_nat n)))%Q.
(* a particle of the rectangle, without its upper sides *)
Definition Inside (c : cont) (p : p2) : Prop := (c_ax c <= fst p < c_bx c)%Q /\ (c_ay c <= snd p < c_by c)%Q.
(* close enough for the number of its block to be an int *)
Definition Near (c : cont) (p : p2) : Prop :=
  (Qabs ((fst p - c_ax c) * (1 / ((c_bx c - c_ax c) / inject_Z (Z.of_nat (c_nx c))))) < inject_Z (2 ^ 31 - 1))%Q /\
  (Qabs ((snd p - c_ay c) * (1 / ((c_by c - c_ay c) / inject_Z (Z.of_nat (c_ny c))))) < inject_Z (2 ^ 31 - 1))%Q.
(* every particle is in the block it is stored in, or on its upper sides if a periodic image *)
Definition InBlocks (c : cont) : Prop := forall i j b n p, i < c_nx c -> nth_error (c_blocks c) (i + c_nx c * j) = Some b -> In (n, p) b ->
  (edge (c_ax c) (c_bx c) (c_nx c) i <= fst p <= edge (c_ax c) (c_bx c) (c_nx c) (S i))%Q /\ (c_xper c = false -> fst p < edge (c_ax c) (c_bx c) (c_nx c) (S i))%Q /\
  (edge (c_ay c) (c_by c) (c_ny c) j <= snd p <= edge (c_ay c) (c_by c) (c_ny c) (S j))%Q /\ (c_yper c = false -> snd p < edge (c_ay c) (c_by c) (c_ny c) (S j))%Q.
(* p' is p moved by whole widths, in the periodic directions only *)
Definition ImageOf (c : cont) (p p' : p2) : Prop := exists k m : Z,
  (fst p' == fst p + inject_Z k * (c_bx c - c_ax c))%Q /\ (snd p' == snd p + inject_Z m * (c_by c - c_ay c))%Q /\ (c_xper c = false -> k = 0%Z) /\ (c_yper c = false -> m = 0%Z).
(* inside in every direction that is not periodic *)
Definition CanTake (c : cont) (p : p2) : Prop := (c_xper c = false -> c_ax c <= fst p < c_bx c)%Q /\ (c_yper c = false -> c_ay c <= snd p < c_by c)%Q.
(* on the rectangle, its upper sides included *)
Definition OnRect (c : cont) (p : p2) : Prop := (c_ax c <= fst p <= c_bx c)%Q /\ (c_ay c <= snd p <= c_by c)%Q.
(* q' is q as it is kept: the same number, moved onto the rectangle, and not moved if it is inside *)
Definition KeptAs (c : cont) (q q' : particle) : Prop :=
  fst q' = fst q /\ ImageOf c (snd q) (snd q') /\ OnRect c (snd q') /\ (Inside c (snd q) -> fst (snd q') == fst (snd q) /\ snd (snd q') == snd (snd q))%Q.
(* what is kept of a history of particles: one entry for each that can be taken, none for the others *)
Inductive Taken (c : cont) : list particle -> list particle -> Prop :=
| T_nil : Taken c [] []
| T_in q q' qs l : CanTake c (snd q) -> KeptAs c q q' -> Taken c qs l -> Taken c (q :: qs) (q' :: l)
| T_out q qs l : ~ CanTake c (snd q) -> Taken c qs l -> Taken c (q :: qs) l.
