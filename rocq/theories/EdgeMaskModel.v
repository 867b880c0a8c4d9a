(* Model of the HAVE_MPI block of MeshEditor::flagEdgesForCleaning, src/MeshEditor.cc lines 266-505,
   run by every rank of a program with more than one: the masks of shared edges are exchanged, and
   the nodes to remove are chosen anew. *)
From Verif Require Import Base StdAlg SerializeModel MeshModel KeyMapModel MeshEditorModel MpiModel ExchangeModel CheckModel DistModel.
From Coq Require Import QArith.
Local Open Scope nat_scope.

Section Masks.
  (* nn is nnodes0; e2i is edgeToIndex (entry i has index i), nd is neighborDomains, sn sharedNodes *)
  Context (nn : nat) (e2i : keymap (K := nat * nat)) (nd : list nat) (sn : list (list nat)).

  (* lines 299-309: nodeIndexToSharePosition of one neighbor; what it maps a node to is its place in
     the list, findIndex.  sharedNodeReverse is indexed with the node. *)
  Definition sharePositions (l : list nat) : res unit :=
    do _ <- mfold (fun seen x =>
      do _ <- assert (negb (mem x seen));
      do _ <- (if x <? nn then Ok tt else UB);
      Ok (seen ++ [x])) l [];
    Ok tt.

  (* lines 312-340: the shared edges as pairs of places, sorted (pairCompare, src/polytope_internal.hh
     lines 78-84).  The map is walked in the order of its entries here; sorting makes up for it. *)
  Definition sharedEdges (l : list nat) : res (list (nat * nat)) :=
    do es <- mfold (fun es '((a, b), _) =>
      do _ <- assert (a <? b);
      do _ <- assert ((a <? nn) && (b <? nn));
      match findIndex l a, findIndex l b with
      | Some p, Some q => do _ <- assert (negb (p =? q)); Ok (es ++ [edge_key p q])
      | _, _ => Ok es
      end) e2i [];
    Ok (sortb nedge_lt es).

  (* lines 360-375 and 429-446: the index of the edge between two places of l *)
  Definition edgeOf (l : list nat) (pq : nat * nat) : res nat :=
    let '(p, q) := pq in
    do _ <- assert ((p <? length l) && (q <? length l));
    do a <- get l p; do b <- get l q;
    do _ <- assert ((a <? nn) && (b <? nn));
    do _ <- assert (negb (a =? b));
    match find nedge_lt (edge_key a b) e2i with
    | None => Abort
    | Some ie => do _ <- assert (ie <? length e2i); Ok ie
    end.

  (* lines 294-379 for one neighbor: its shared edges and their masks *)
  Definition sharedMask (em : list nat) (i : nat) : res (list (nat * nat) * list nat) :=
    do l <- get sn i;
    do _ <- sharePositions l;
    do es <- sharedEdges l;
    do ms <- mmap (fun pq => do ie <- edgeOf l pq; get em ie) es;
    Ok (es, ms).

  (* lines 381-397.  localBuffer is not cleared between neighbors, so buf keeps growing.  A send is a
     copy here (see MpiModel.v); in the code the buffers of pending sends are overwritten (localBuffer)
     or gone (localBufferSize), so the model is what happens at best. *)
  Fixpoint maskSends {A} (buf : list Z) (todo : list (nat * list nat)) (k : prog gmsg A) : prog gmsg A :=
    match todo with
    | [] => k
    | (other, mask) :: todo =>
        let buf := buf ++ serialize (TVec TUnsigned) (map Z.of_nat mask) in
        Send other 1 (GSize (usize buf))
          (if (0 <? usize buf)%Z then Send other 2 (GBytes buf) (maskSends buf todo k) else maskSends buf todo k)
    end.

  (* lines 399-418 *)
  Fixpoint maskRecvs {A} (nd : list nat) (acc : list (list nat)) (k : list (list nat) -> prog gmsg A) : prog gmsg A :=
    match nd with
    | [] => k acc
    | other :: nd =>
        Recv other 1 (fun m => match m with
        | GBytes _ => Ret UB
        | GSize size =>
            if (0 <? size)%Z then
              Recv other 2 (fun m => match m with
              | GSize _ => Ret UB
              | GBytes b => if (Z.of_nat (length b) =? size)%Z then
                  lift (deserialize (TVec TUnsigned) true [] b) (fun '(mask, rest) =>
                  lift (assert (isnil rest)) (fun _ =>
                  maskRecvs nd (acc ++ [map Z.to_nat mask]) k)) else Ret UB
              end)
            else maskRecvs nd (acc ++ [[]]) k
        end)
    end.

  (* lines 426-449: keep an edge that a neighbor keeps.  neighborEdgeMasks is not checked to be long
     enough. *)
  Definition mergeMasks (ess : list (list (nat * nat))) (theirs : list (list nat)) (em : list nat) : res (list nat) :=
    mfold (fun em i =>
      do es <- get ess i; do l <- get sn i; do ms <- get theirs i;
      mfold (fun em j =>
        do pq <- get es j;
        do ie <- edgeOf l pq;
        do x <- get em ie; do y <- get ms j;
        set em ie (Nat.max x y)) (seq 0 (length es)) em)
      (seq 0 (length nd)) em.

  (* the neighbors that share node a: sharedNodeReverse, line 306 *)
  Definition nodeSharers (a : nat) : list nat :=
    filter (fun i => match nth_error sn i with Some l => mem a l | None => false end) (seq 0 (length nd)).
  (* sharedEdgeReverse, line 333 *)
  Definition edgeSharers (e : nat * nat) : list nat :=
    filter (fun i => match nth_error sn i with Some l => mem (fst e) l && mem (snd e) l | None => false end) (seq 0 (length nd)).

  (* lines 470-491: (node that stays, node that goes) *)
  Definition orient (e : nat * nat) : res (nat * nat) :=
    let '(a, b) := e in
    match edgeSharers e with
    | [] => Ok (if negb (isnil (nodeSharers b)) && isnil (nodeSharers a) then (b, a) else (a, b))
    | [i] =>
        do l <- get sn i;
        match findIndex l a, findIndex l b with
        | Some p, Some q => Ok (if q <? p then (b, a) else (a, b))
        | _, _ => UB
        end
    | _ => Abort
    end.

  (* lines 456-502: mNodeMask and nodeCollapse *)
  Definition chooseNodes (em : list nat) : res (list nat * list nat) :=
    mfold (fun '(nm, col) ie =>
      do e <- get (map fst e2i) ie;
      do k <- get em ie;
      if k =? 0 then
        do (stay, go) <- orient e;
        do nm <- set nm go 0;
        do col <- set col go stay;
        Ok (nm, col)
      else Ok (nm, col)) (seq 0 (length e2i)) (repeat 1 nn, seq 0 nn).

  (* lines 420-505, once the masks have come in: edgeMask, mNodeMask, nodeCollapse, edgesClean *)
  Definition settle (em col : list nat) (clean : bool) (ess : list (list (nat * nat))) (theirs : list (list nat))
    : res (list nat * list nat * list nat * bool) :=
    do em <- mergeMasks ess theirs em;
    let clean := clean || (total em =? length e2i) in
    if clean : bool then Ok (em, repeat 1 nn, col, true)
    else do (nm, col) <- chooseNodes em; Ok (em, nm, col, false).

  (* lines 279-505, followed by k *)
  Definition exchangeMasks {A} (em col : list nat) (clean : bool) (k : list nat * list nat * list nat * bool -> res A) : prog gmsg A :=
    lift (mmap (sharedMask em) (seq 0 (length nd))) (fun ems =>
    maskSends [] (combine nd (map snd ems))
    (maskRecvs nd [] (fun theirs =>
     Ret (bind (settle em col clean (map fst ems) theirs) k)))).
End Masks.

(* cleanEdges, lines 75-86 and 98-579, on one of several ranks *)
Definition cleanEdgesRank (D : nat) (tol : Q) (m : mesh Q) : prog gmsg (mesh Q) :=
  lift (flags D tol m) (fun '(st, (em, _, col, clean)) =>
  exchangeMasks (numNodes D m) (e2i st) (neighborDomains m) (sharedNodes m) em col clean (fun '(em, nm, col, clean) =>
  if clean : bool then Ok m else collapse D m (e2i st) em nm col)).
