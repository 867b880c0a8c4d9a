(* Model of the exchange of shared node positions at the end of
   DistributedTessellator::computeDistributedTessellation, src/DistributedTessellator.cc
   lines 585-736, as a program that every rank runs.  DEBUG_MODE is always defined (lines 29-33),
   so the blocks under #ifdef DEBUG_MODE are part of every build. *)
From Verif Require Import Base MpiModel.

(* the messages with tag 9 (one unsigned) and tag 10 (coordinates) *)
Inductive msg (V : Type) := MSize (n : nat) | MCoords (c : list V).
Arguments MSize {V}. Arguments MCoords {V}.

(* code that may fail, followed by communication *)
Definition lift {M A B} (r : res B) (k : B -> prog M A) : prog M A :=
  match r with Ok b => k b | Abort => Ret Abort | UB => Ret UB | Hang => Ret Hang end.

Section Exchange.
  Context {V : Type} (D : nat).

  (* lines 589-599: the lowest rank known to share each node *)
  Definition ownNodes (me nNodes : nat) (nd : list nat) (sn : list (list nat)) : res (list nat) :=
    mfold (fun own i =>
      do other <- get nd i; do l <- get sn i;
      mfold (fun own x =>
        do _ <- assert (x <? nNodes);
        do o <- get own x; set own x (Nat.min o other)) l own)
      (seq 0 (length nd)) (repeat me nNodes).

  (* lines 645-653: (sendNodes, recvNodes) for one neighbor *)
  Definition splitNodes (me : nat) (own : list nat) (other : nat) (l : list nat) : res (list nat * list nat) :=
    mfold (fun '(s, r) x =>
      do o <- get own x;
      do _ <- assert (o <=? me);
      Ok (if o =? me then (s ++ [x], r) else if o =? other then (s, r ++ [x]) else (s, r))) l ([], []).

  (* DimensionTraits::extractCoords, src/DimensionTraits.hh lines 65-78 and 138-152 *)
  Definition extractCoords (ns : list V) (idx : list nat) : res (list V) :=
    mfold (fun acc i =>
      do _ <- assert (i <? length ns / D);
      mfold (fun acc k => do v <- get ns (D * i + k); Ok (acc ++ [v])) (seq 0 D) acc) idx [].

  (* lines 722-727 *)
  Definition unpack (ns : list V) (idx : list nat) (c : list V) : res (list V) :=
    mfold (fun ns j =>
      do i <- get idx j;
      mfold (fun ns k => do v <- get c (D * j + k); set ns (D * i + k) v) (seq 0 D) ns)
      (seq 0 (length idx)) ns.

  (* lines 638-686: the sends for the neighbors with numbers in is; acc collects allRecvNodes *)
  Fixpoint posts (me : nat) (own : list nat) (ns : list V) (nd : list nat) (sn : list (list nat)) (is : list nat)
                 (acc : list (nat * list nat)) (k : list (nat * list nat) -> prog (msg V) (list V)) : prog (msg V) (list V) :=
    match is with
    | [] => k acc
    | i :: is =>
        lift (get nd i) (fun other => lift (get sn i) (fun l =>
        lift (splitNodes me own other l) (fun '(s, r) =>
        Send other 9 (MSize (D * length s))
          (match s with
           | [] => posts me own ns nd sn is (acc ++ [(other, r)]) k
           | _ => lift (extractCoords ns s) (fun c =>
                  lift (assert (length c =? D * length s)) (fun _ =>
                  Send other 10 (MCoords c) (posts me own ns nd sn is (acc ++ [(other, r)]) k)))
           end))))
    end.

  (* lines 690-731.  Receiving more than the buffer holds is an error; a shorter message would
     leave the rest of the buffer zero, here an error too: the sizes have just been compared. *)
  Fixpoint receives (todo : list (nat * list nat)) (ns : list V) : prog (msg V) (list V) :=
    match todo with
    | [] => Ret (Ok ns)
    | (other, r) :: todo =>
        Recv other 9 (fun m => match m with
          | MCoords _ => Ret UB
          | MSize size => lift (assert (size =? D * length r)) (fun _ =>
              match r with
              | [] => receives todo ns
              | _ => Recv other 10 (fun m => match m with
                  | MSize _ => Ret UB
                  | MCoords c => if length c =? D * length r then lift (unpack ns r c) (receives todo) else Ret UB
                  end)
              end)
          end)
    end.

  (* lines 585-736 for rank me with node coordinates ns and neighbors nd, sharing sn *)
  Definition exchange (me : nat) (ns : list V) (nd : list nat) (sn : list (list nat)) : prog (msg V) (list V) :=
    lift (ownNodes me (length ns / D) nd sn) (fun own =>
    posts me own ns nd sn (seq 0 (length nd)) [] (fun todo => receives todo ns)).
End Exchange.
