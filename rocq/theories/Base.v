(* Shared vocabulary of all models: outcomes of C++ code and checked array access. *)
From Coq Require Export List Arith ZArith Lia Bool.
Export ListNotations.
From Coq Require Export ZifyBool ZifyNat.

(* The outcome of running a piece of C++:
   - [Ok a]   : it returns [a];
   - [Abort]  : a POLY_ASSERT fails in a contract build
                (src/polytope_internal.hh lines 17-29: print and internal_abort());
   - [UB]     : undefined behaviour (out-of-range access, double free, ...);
   - [Hang]   : the loop did not finish within the fuel of the model (theorems that
                conclude [Ok] therefore include termination). *)
Inductive res (A : Type) : Type :=
| Ok (a : A)
| Abort
| UB
| Hang.
Arguments Ok {A} a.
Arguments Abort {A}.
Arguments UB {A}.
Arguments Hang {A}.

Definition bind {A B} (m : res A) (f : A -> res B) : res B :=
  match m with Ok a => f a | Abort => Abort | UB => UB | Hang => Hang end.

Notation "'do' x <- m ; k" := (bind m (fun x => k))
  (at level 200, x pattern, m at level 100, k at level 200, right associativity).

(* POLY_ASSERT(b) in a contract build (src/polytope_internal.hh lines 17-29). *)
Definition assert (b : bool) : res unit := if b then Ok tt else Abort.

(* v[i] on a std::vector; out of range is undefined behaviour. *)
Definition get {A} (l : list A) (i : nat) : res A :=
  match nth_error l i with Some a => Ok a | None => UB end.

(* Functional update of one array entry. *)
Fixpoint upd {A} (l : list A) (i : nat) (a : A) : list A :=
  match l, i with
  | [], _ => []
  | _ :: t, O => a :: t
  | h :: t, S i => h :: upd t i a
  end.

(* v[i] = a; out of range is undefined behaviour. *)
Definition set {A} (l : list A) (i : nat) (a : A) : res (list A) :=
  if i <? length l then Ok (upd l i a) else UB.

(* for (x : l) body, threading a state that may fail. *)
Fixpoint mfold {A S} (f : S -> A -> res S) (l : list A) (s : S) : res S :=
  match l with
  | [] => Ok s
  | a :: t => do s' <- f s a; mfold f t s'
  end.

Fixpoint mmap {A B} (f : A -> res B) (l : list A) : res (list B) :=
  match l with
  | [] => Ok []
  | a :: t => do b <- f a; do bs <- mmap f t; Ok (b :: bs)
  end.

(* internal::positiveID (src/polytope_internal.hh lines 139-143); also the recurring
   idiom  x >= 0 ? x : ~x  (e.g. src/deleteCells.hh line 42).  ~x is Z.lnot x = -x-1. *)
Definition positiveID (x : Z) : Z := if (0 <=? x)%Z then x else Z.lnot x.

(* The same value used as an array index. *)
Definition pid (x : Z) : nat := Z.to_nat (positiveID x).
