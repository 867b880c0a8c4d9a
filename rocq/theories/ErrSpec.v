(* Where errors should go. *)
From Coq Require Import String.
From Verif Require Import Base ErrModel.
Local Open Scope string_scope.
Local Open Scope list_scope.

(* Which handler counts after the calls l: the one set last through either interface; None when none was
   set, or NULL was set last. *)
Definition Setting (c : ecall) (u : option (bool * nat)) : Prop :=
  match c with Set_ h => u = option_map (pair true) h | SetC h => u = option_map (pair false) h | Error _ _ => False end.
Definition isSet (c : ecall) : Prop := exists u, Setting c u.
Definition LastSet (l : list ecall) (u : option (bool * nat)) : Prop :=
  ((forall c, In c l -> ~ isSet c) /\ u = None) \/
  (exists l1 c l2, l = l1 ++ c :: l2 /\ Setting c u /\ forall d, In d l2 -> ~ isSet d).
(* A C program sees of a text what comes before its first NUL character. *)
Definition BeforeNul (m t : string) : Prop :=
  exists rest, m = String.append t rest /\ (forall n, String.get n t <> Some Ascii.zero) /\ (rest = EmptyString \/ exists r, rest = String Ascii.zero r).
(* what an error then causes *)
Definition Response (u : option (bool * nat)) (mpi : option nat) (m : string) (x : Z) (es : list event) : Prop :=
  match u with
  | Some (true, n) => es = [Called n m x]
  | Some (false, n) => exists t, BeforeNul m t /\ es = [CCalled n t x]
  | None => exists printed, es = printed ++ [Left x] /\
      (printed = [] <-> exists r, mpi = Some (S r)) /\
      (printed <> [] -> printed = [Printed (String.append "Error: " m); Printed "encountered in polytope library. Exiting with status "; PrintedStatus x])
  end.
(* NULL is not given to the C interface *)
Definition NoNull (l : list ecall) : Prop := ~ In (SetC None) l.
