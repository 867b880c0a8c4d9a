(* Programs whose ranks only meet in collective operations.  MPI requires all ranks of a
   communicator to make the same collective calls in the same order; a run in which they do not
   has no meaning and is not derivable below. *)
From Verif Require Import Base.

Inductive cprog (A : Type) :=
| CRet (a : res A)
(* MPI_Bcast of cnt values: v is what this rank passes in, and the root's v is what all get *)
| CBcast (root cnt : nat) (v : list Z) (k : list Z -> cprog A)
(* allReduce(v, MPI_MIN, MPI_COMM_WORLD), src/polytope_parallel_utilities.hh lines 36-46 *)
| CMin (v : nat) (k : nat -> cprog A).
Arguments CRet {A}. Arguments CBcast {A}. Arguments CMin {A}.

Definition clift {A B} (r : res B) (k : B -> cprog A) : cprog A :=
  match r with Ok b => k b | Abort => CRet Abort | UB => CRet UB | Hang => CRet Hang end.

(* what follows a program *)
Fixpoint cbind {A B} (p : cprog A) (k : A -> cprog B) : cprog B :=
  match p with
  | CRet a => clift a k
  | CBcast root cnt v q => CBcast root cnt v (fun x => cbind (q x) k)
  | CMin v q => CMin v (fun x => cbind (q x) k)
  end.

(* Together n ps a: ranks 0..n-1 run ps, make the same calls, and rank r returns a r *)
Inductive Together {A} (n : nat) : (nat -> cprog A) -> (nat -> res A) -> Prop :=
| t_ret ps a : (forall r, r < n -> ps r = CRet (a r)) -> Together n ps a
| t_bcast ps root cnt v k a : root < n -> (forall r, r < n -> ps r = CBcast root cnt (v r) (k r)) -> length (v root) = cnt ->
    Together n (fun r => k r (v root)) a -> Together n ps a
| t_min ps v k a m : (forall r, r < n -> ps r = CMin (v r) (k r)) -> (exists r, r < n /\ v r = m) -> (forall r, r < n -> m <= v r) ->
    Together n (fun r => k r m) a -> Together n ps a.
