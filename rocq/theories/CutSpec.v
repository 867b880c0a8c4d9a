(* What a planar cell is and how it is cut. *)
From Verif Require Import Base Plane PLCSpec CutModel.
From Coq Require Import QArith.
Local Open Scope nat_scope.

(* the links go along the list *)
Fixpoint Path (nx pv : nat -> option nat) (l : list nat) : Prop :=
  match l with
  | a :: t => match t with b :: _ => nx a = Some b /\ pv b = Some a /\ Path nx pv t | [] => True end
  | [] => True
  end.
(* the corners of the cell, in order around it: every stored corner once, linked round *)
Definition CellOf (s : vcell) (vs : list corner) : Prop := exists c,
  NoDup c /\ (forall i, In i c <-> i < vp s) /\ Path (vnext s) (vprev s) (c ++ firstn 1 c) /\ Forall2 (fun i v => vx s i = Some v) c vs.
(* q is on the left of every side of the polygon *)
Definition Within (ps : list p2) (q : p2) : Prop := forall a b, In (a, b) (ring ps) -> (0 <= orient a b q)%Q.
(* the same list begun elsewhere *)
Definition Turn {A} (l l' : list A) : Prop := exists a b, l = a ++ b /\ l' = b ++ a.
(* no stored corner is within the tolerance of a line that is about to cut *)
Definition FarFrom (x y rsq : Q) (s : vcell) : Prop := forall i v, i < vp s -> vx s i = Some v ->
  (x * fst (fst v) + y * snd (fst v) - rsq < - cut_tol \/ cut_tol < x * fst (fst v) + y * snd (fst v) - rsq)%Q.
Fixpoint FarFromAll (ds : list (p2 * Z)) (s : vcell) : Prop :=
  match ds with
  | [] => True
  | (d, i) :: t => FarFrom (fst d) (snd d) (fst d * fst d + snd d * snd d) s /\ forall s', nplane_to d i s = Ok (true, s') -> FarFromAll t s'
  end.
(* squared distance *)
Definition apart (a b : p2) : Q := ((fst a - fst b) * (fst a - fst b) + (snd a - snd b) * (snd a - snd b))%Q.
(* corners are stored at twice the size *)
Definition twice (q : p2) : p2 := (2 * fst q, 2 * snd q)%Q.
Definition half (q : p2) : p2 := (fst q * (1 # 2), snd q * (1 # 2))%Q.
(* what a side with this label lies on: a side of the rectangle, or the line half way to a particle *)
Definition SideOf (xmin xmax ymin ymax : Q) (ds : list (p2 * Z)) (label : Z) (p : p2) : Prop :=
  (label = -1 /\ fst p == xmin)%Z%Q \/ (label = -2 /\ fst p == xmax)%Z%Q \/ (label = -3 /\ snd p == ymin)%Z%Q \/ (label = -4 /\ snd p == ymax)%Z%Q \/
  exists d, In (d, label) ds /\ (apart p (0, 0) == apart p d)%Q.
