(* Message passing: ranks that run concurrently and exchange messages, with every interleaving
   allowed.  This is the part of MPI the library uses for point-to-point communication:
   MPI_Isend (the buffers the code passes stay untouched until MPI_Waitall, so a send is the
   appending of a copy to the channel), MPI_Recv with a named source and tag (it blocks until a
   message is there), MPI_Waitall (nothing left to do: sends never block).  Messages between two
   ranks with one tag arrive in the order they were sent, as MPI guarantees; nothing is assumed
   about the timing of anything else. *)
From Verif Require Import Base.

Section Mpi.
  Context {M A : Type}.

  (* what a rank still has to do *)
  Inductive prog :=
  | Ret (a : res A)
  | Send (dst tag : nat) (m : M) (k : prog)
  | Recv (src tag : nat) (k : M -> prog).

  (* the state of all ranks, and the messages under way from src to dst with a tag *)
  Record config := mkConfig { proc : nat -> prog; chan : nat -> nat -> nat -> list M }.

  (* one rank takes one step *)
  Inductive step (c c' : config) : Prop :=
  | step_send r d t m k :
      proc c r = Send d t m k -> proc c' r = k -> (forall q, q <> r -> proc c' q = proc c q) ->
      chan c' r d t = chan c r d t ++ [m] ->
      (forall x y z, (x, y, z) <> (r, d, t) -> chan c' x y z = chan c x y z) -> step c c'
  | step_recv r s t m k rest :
      proc c r = Recv s t k -> chan c s r t = m :: rest ->
      proc c' r = k m -> (forall q, q <> r -> proc c' q = proc c q) ->
      chan c' s r t = rest ->
      (forall x y z, (x, y, z) <> (s, r, t) -> chan c' x y z = chan c x y z) -> step c c'.

  (* n steps, by whichever ranks *)
  Inductive steps : nat -> config -> config -> Prop :=
  | steps_refl c c' : (forall q, proc c q = proc c' q) -> (forall x y z, chan c x y z = chan c' x y z) -> steps 0 c c'
  | steps_S n c d e : step c d -> steps n d e -> steps (S n) c e.

  (* all ranks are done *)
  Definition finished (c : config) : Prop := forall r, exists a, proc c r = Ret a.
  Definition start (ps : nat -> prog) : config := mkConfig ps (fun _ _ _ => []).
End Mpi.
Arguments prog : clear implicits.
Arguments config : clear implicits.
