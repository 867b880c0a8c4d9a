(* Ranks that hold copies of the same nodes. *)
From Verif Require Import Base.
From Coq Require Import List.

(* what one rank has: coordinates (D per node), a global name for each of its nodes, its
   neighbors, and for each neighbor the local numbers of the nodes they share *)
Record part (V : Type) := mkPart { coords : list V; names : list nat; neighbors : list nat; shared : list (list nat) }.
Arguments mkPart {V}. Arguments coords {V}. Arguments names {V}. Arguments neighbors {V}. Arguments shared {V}.

(* the coordinates of local node i *)
Definition position {V} (D : nat) (c : list V) (i : nat) : list V := firstn D (skipn (D * i) c).
Definition Holds {V} (p : part V) (x : nat) : Prop := In x (names p).
(* p lists x among the nodes it shares with rank s *)
Definition Lists {V} (p : part V) (s x : nat) : Prop :=
  exists i l j, nth_error (neighbors p) i = Some s /\ nth_error (shared p) i = Some l /\ In j l /\ nth_error (names p) j = Some x.

(* the lists of n ranks fit together *)
Record Consistent {V} (D n : nat) (P : nat -> part V) : Prop := {
  co_sizes : forall r, r < n -> length (coords (P r)) = D * length (names (P r)) /\ length (shared (P r)) = length (neighbors (P r));
  co_names : forall r, r < n -> NoDup (names (P r));
  co_neighbors : forall r, r < n -> NoDup (neighbors (P r)) /\ forall s, In s (neighbors (P r)) -> s < n /\ s <> r;
  (* two neighbors list the same nodes in the same order *)
  co_lists : forall r i s l, r < n -> nth_error (neighbors (P r)) i = Some s -> nth_error (shared (P r)) i = Some l ->
      exists i' l', nth_error (neighbors (P s)) i' = Some r /\ nth_error (shared (P s)) i' = Some l' /\
        exists xs, Forall2 (fun j x => nth_error (names (P r)) j = Some x) l xs /\ Forall2 (fun j x => nth_error (names (P s)) j = Some x) l' xs;
  (* two ranks that hold the same node list it *)
  co_complete : forall r s x, r < n -> s < n -> r <> s -> Holds (P r) x -> Holds (P s) x -> Lists (P r) s x }.

(* o is the lowest of the n ranks that hold x *)
Definition Lowest {V} (n : nat) (P : nat -> part V) (x o : nat) : Prop :=
  o < n /\ Holds (P o) x /\ forall s, s < n -> Holds (P s) x -> o <= s.
