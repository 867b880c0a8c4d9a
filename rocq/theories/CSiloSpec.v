(* What the C interface to the Silo files is to hand over and to give back. *)
From Coq Require Import String Sorted.
From Verif Require Import Base CSiloModel.
Local Open Scope nat_scope.

(* the entry with name k among the first n of two arrays is v: of several with that name the last one counts *)
Definition entry {A} (n : nat) (names : list string) (vals : nat -> option A) (k : string) (v : A) : Prop :=
  exists i, i < n /\ nth_error names i = Some k /\ vals i = Some v
            /\ forall j, i < j -> j < n -> nth_error names j <> Some k.
(* a map with exactly those entries, no name twice *)
Definition map_of {A} (m : list (string * A)) (n : nat) (names : list string) (vals : nat -> option A) : Prop :=
  NoDup (map fst m) /\ forall k v, In (k, v) m <-> entry n names vals k v.

(* the arrays that are passed are as long as is said *)
Definition passed {P} (a : c_args P) : Prop :=
  nf a <= length (fnames a) /\ nf a <= length (fptrs a)
  /\ nt a <= length (tnames a) /\ nt a <= length (tsizes a) /\ nt a <= length (tarrays a)
  /\ forall i n l, nth_error (tsizes a) i = Some n -> nth_error (tarrays a) i = Some l -> i < nt a -> n <= length l.
(* tag i, that is the first elements of its array *)
Definition tag {P} (a : c_args P) (i : nat) : option (list Z) :=
  match nth_error (tsizes a) i, nth_error (tarrays a) i with Some n, Some l => Some (firstn n l) | _, _ => None end.
Definition hands_over {P} (a : c_args P) (h : handed P) : Prop :=
  map_of (fst h) (nf a) (fnames a) (nth_error (fptrs a)) /\ map_of (snd h) (nt a) (tnames a) (tag a).
(* no tag name twice *)
Definition distinct_tags {P} (a : c_args P) : Prop := NoDup (firstn (nt a) (tnames a)).

(* What the caller of the reader is to find: as many entries as were read, each with its name, its
   values and its size *)
Definition fields_given (m : list (string * list QArith_base.Q)) (f : c_fields) : Prop :=
  num_fields f = length m /\ field_names f = map (fun e => Some (fst e)) m /\ field_values f = map (fun e => Some (snd e)) m.
Definition tags_given (m : list (string * list Z)) (t : c_tags) : Prop :=
  num_tags t = length m /\ tag_names t = map (fun e => Some (fst e)) m
  /\ tag_sizes t = map (fun e => Some (length (snd e))) m /\ tag_values t = map (fun e => Some (snd e)) m.
Definition given_if (ask : bool) (m : list (string * list Z)) (t : option c_tags) : Prop :=
  if ask then exists r, t = Some r /\ tags_given m r else t = None.
