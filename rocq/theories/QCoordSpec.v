(* What an integer grid over points should give.  Inside and coord are in HashSpec.v. *)
From Verif Require Import Base PLCSpec HashSpec QCoordModel.
From Coq Require Import QArith Qabs.
Local Open Scope nat_scope.

(* the lists of points given since the grid was last set up *)
Fixpoint given_from (ops : list op) (seen : list (list Q)) : list (list Q) :=
  match ops with
  | [] => seen
  | Initialize ps _ :: t => given_from t [ps]
  | Expand ps _ :: t => given_from t (ps :: seen)
  | Degeneracy _ :: t => given_from t seen
  | Clear :: t => given_from t []
  end.
Definition given (ops : list op) : list (list Q) := given_from ops [].
(* all coordinates are within the range of the number type *)
Definition in_range (big : Q) (ops : list op) : Prop :=
  forall ps, (exists d, In (Initialize ps d) ops) \/ (exists t, In (Expand ps t) ops) -> forall x, In x ps -> (- big <= x <= big)%Q.

(* every point lies in the box *)
Definition Holds (D : nat) (lo hi : list Q) (ps : list Q) : Prop :=
  forall i, i < length ps / D -> Inside D lo hi (vertex D ps i).
(* the box of one point set: no smaller box holds it *)
Record BoxAround (D : nat) (ps lo hi : list Q) : Prop := {
  ba_in : Holds D lo hi ps;
  ba_lo : forall j, j < D -> exists i, i < length ps / D /\ (coord (vertex D ps i) j == coord lo j)%Q;
  ba_hi : forall j, j < D -> exists i, i < length ps / D /\ (coord (vertex D ps i) j == coord hi j)%Q }.
(* p and p' differ by at most e along each axis *)
Definition Within (D : nat) (e : Q) (p p' : list Q) : Prop := forall j, j < D -> (Qabs (coord p' j - coord p j) <= e)%Q.
