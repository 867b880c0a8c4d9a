(* Model of DistributedTessellator::computeDistributedTessellation, src/DistributedTessellator.cc
   lines 186-560: the generators are exchanged, the mesh of the own and the neighbors' generators
   is made, the shared elements are listed, and only the own cells are kept.  What follows (lines
   562-736) is in ExchangeModel.v.  The neighbors come from computeDomainNeighbors (line 245). *)
From Verif Require Import Base StdAlg SerializeModel MeshModel CollModel MpiModel ExchangeModel CheckModel.

(* the messages with tag 1 (one unsigned) and tag 2 (bytes) *)
Inductive gmsg := GSize (n : Z) | GBytes (b : list Z).

Section Dist.
  Context {V : Type} (D : nat).

  (* lines 247-262, from the senders in procs on: everyone checks that neighbors are mutual *)
  Fixpoint contract (me : nat) (nd : list nat) (procs : list nat) : cprog unit :=
    match procs with
    | [] => CRet (Ok tt)
    | p :: procs =>
        CBcast p 1 [usize nd] (fun r => match r with
        | [num] =>
            if (0 <? num)%Z then
              CBcast p (Z.to_nat num) (resize 0%Z (Z.to_nat num) (map Z.of_nat nd)) (fun others =>
              clift (assert ((me =? p) || (count_occ Nat.eq_dec nd p =? count_occ Nat.eq_dec (map Z.to_nat others) me))) (fun _ =>
              contract me nd procs))
            else contract me nd procs
        | _ => CRet UB end)
    end.

  (* lines 270-285 *)
  Fixpoint genSends (buf : list Z) (nd : list nat) (k : prog gmsg (list Z * list nat)) : prog gmsg (list Z * list nat) :=
    match nd with
    | [] => k
    | other :: nd => Send other 1 (GSize (usize buf)) (if (0 <? usize buf)%Z then Send other 2 (GBytes buf) (genSends buf nd k) else genSends buf nd k)
    end.
  (* lines 289-308.  A message longer than the buffer is an error; so is here a shorter one. *)
  Fixpoint genRecvs (nd : list nat) (gens : list Z) (g2d : list nat) : prog gmsg (list Z * list nat) :=
    match nd with
    | [] => Ret (Ok (gens, g2d))
    | other :: nd =>
        Recv other 1 (fun m => match m with
        | GBytes _ => Ret UB
        | GSize size =>
            if (0 <? size)%Z then
              Recv other 2 (fun m => match m with
              | GSize _ => Ret UB
              | GBytes b => if Z.of_nat (length b) =? size then
                  lift (deserialize (TVec TDouble) true [] b) (fun '(g, rest) =>
                  lift (assert (isnil rest)) (fun _ =>
                  genRecvs nd (gens ++ g) (resize other (length (gens ++ g) / D) g2d))) else Ret UB
              end)
            else genRecvs nd gens g2d
        end)%Z
    end.
  (* lines 264-314 for rank me.  The bytes are appended to an empty buffer. *)
  Definition genExchange (me : nat) (points : list Z) (nd : list nat) : prog gmsg (list Z * list nat) :=
    genSends (serialize (TVec TDouble) points) nd (genRecvs nd points (repeat me (length points / D))).

  (* ---- the lists of shared elements ---- *)
  Definition nodupb (l : list nat) : bool := length (nodup Nat.eq_dec l) =? length l.
  (* proc2offset (lines 343-345) maps a neighbor to its place: find first *)
  Definition add (nd : list nat) (other : nat) (x : nat) (ls : list (list nat)) : res (list (list nat)) :=
    match findIndex nd other with
    | None => Abort
    | Some j => do l <- get ls j; set ls j (l ++ [x])
    end.

  (* lines 355-372 for one face of cell icell *)
  Definition commFace (m : mesh V) (g2d : list nat) (me : nat) (nd : list nat) (icell : nat) (sf : list (list nat)) (z : Z) : res (list (list nat)) :=
    do fc <- get (faceCells m) (pid z);
    do _ <- assert ((length fc =? 1) || (length fc =? 2));
    if length fc =? 2 then
      do c0 <- get fc 0; do c1 <- get fc 1;
      do _ <- assert ((pid c0 =? icell) || (pid c1 =? icell));
      let j := if pid c0 =? icell then pid c1 else pid c0 in
      do _ <- assert (j <? length g2d);
      do o <- get g2d j;
      if o =? me then Ok sf else add nd o (pid z) sf
    else Ok sf.
  (* lines 348-374 *)
  Definition commFaces (m : mesh V) (g2d : list nat) (me : nat) (nd : list nat) (nlocal : nat) : res (list (list nat)) :=
    mfold (fun sf icell => do c <- get (cells m) icell; mfold (commFace m g2d me nd icell) c sf)
      (seq 0 nlocal) (resize [] (length nd) (sharedFaces m)).
  (* lines 377-393 *)
  Definition commNodes (m : mesh V) (g2d : list nat) (me : nat) (nd : list nat) : res (list (list nat)) :=
    do nc <- computeNodeCells D m;
    mfold (fun sn inode =>
      do cs <- get nc inode;
      mfold (fun sn oc =>
        do _ <- assert (oc <? length g2d);
        do o <- get g2d oc;
        if o =? me then Ok sn else add nd o inode sn) cs sn)
      (seq 0 (length nc)) (resize [] (length nd) (sharedNodes m)).

  (* constructPoint for a node: hash gives the hashed coordinates of a position; the bounding box of
     line 442 and dx are the same on all ranks *)
  Context (hash : list V -> list Z) (fkey : mesh V -> nat -> res (list Z)).
  Definition nodeKey (m : mesh V) (i : nat) : res (list Z) :=
    do p <- mmap (fun k => get (nodes m) (D * i + k)) (seq 0 D); Ok (hash p).
  (* lines 452-461, 506-507 and 511-519: sort a list by the keys of its elements.  Which of two
     elements with the same key comes first is up to std::sort. *)
  Definition sortBy (key : nat -> res (list Z)) (l : list nat) : res (list nat) :=
    do ps <- mmap (fun i => do k <- key i; Ok (k, i)) l;
    Ok (map snd (sortb (fun a b => lexlt (fst a) (fst b)) ps)).

  (* lines 340-521 *)
  Definition buildComm (m : mesh V) (g2d : list nat) (me : nat) (nd : list nat) (nlocal : nat) : res (list (list nat) * list (list nat)) :=
    do _ <- assert (nodupb nd);
    do sf <- commFaces m g2d me nd nlocal;
    do sn <- commNodes m g2d me nd;
    let sn := map (fun l => unique (StdAlg.sort l)) sn in
    do sn <- mmap (sortBy (nodeKey m)) sn;
    do sf <- mmap (sortBy (fkey m)) sf;
    Ok (sn, sf).

  (* lines 550-560, from neighbor i-1 downwards *)
  Definition erase {A} (i : nat) (l : list A) : list A := firstn i l ++ skipn (S i) l.
  Fixpoint prune (i : nat) (nd : list nat) (sn sf : list (list nat)) : res (list nat * list (list nat) * list (list nat)) :=
    match i with
    | 0 => Ok (nd, sn, sf)
    | S i =>
        do a <- get sn i;
        if isnil a then
          do b <- get sf i;
          if isnil b then prune i (erase i nd) (erase i sn) (erase i sf) else prune i nd sn sf
        else prune i nd sn sf
    end.

  Definition withComm (m : mesh V) (nd : list nat) (sn sf : list (list nat)) : mesh V :=
    mkMesh (nodes m) (cells m) (faces m) (boundaryNodes m) (boundaryFaces m) (faceCells m) (convexHull m) nd sn sf.

  (* lines 338-560 for more than one rank: m is the mesh of all the generators this rank knows, with
     g2d the ranks they come from; the first nlocal are its own; build is mBuildCommunicationInfo *)
  Definition localMesh (build : bool) (m : mesh V) (g2d : list nat) (me : nat) (nd : list nat) (nlocal : nat) : res (mesh V) :=
    do (sn, sf) <- (if build then buildComm m g2d me nd nlocal else Ok (sharedNodes m, sharedFaces m));
    (* lines 539-541: fill from begin() + nlocal *)
    do mask <- (if nlocal <=? length (cells m) then Ok (repeat 1 nlocal ++ repeat 0 (length (cells m) - nlocal)) else UB);
    do m' <- deleteCells D (withComm m nd sn sf) mask;
    do (nd', sn', sf') <- prune (length (neighborDomains m')) (neighborDomains m') (sharedNodes m') (sharedFaces m');
    Ok (withComm m' nd' sn' sf').
End Dist.

(* faceCentroid in 2D, src/DimensionTraits.hh lines 47-62: half the sum of the hashed end points *)
Definition faceKey2 {V} (hash : list V -> list Z) (m : mesh V) (f : nat) : res (list Z) :=
  do _ <- assert (f <? length (faces m));
  do ns <- get (faces m) f;
  do _ <- assert (length ns =? 2);
  do a <- get ns 0; do b <- get ns 1;
  do _ <- assert (a <? length (nodes m) / 2);
  do _ <- assert (b <? length (nodes m) / 2);
  do p <- nodeKey 2 hash m a; do q <- nodeKey 2 hash m b;
  Ok (map (fun '(x, y) => (Z.div2 x + Z.div2 y)%Z) (combine p q)).

(* faceCentroid in 3D, src/DimensionTraits.hh lines 109-131.  *itr is a node already, but is used as
   an index into the face once more.  mean is the average of positions. *)
Definition faceKey3 {V} (hash : list V -> list Z) (mean : list (list V) -> list V) (m : mesh V) (f : nat) : res (list Z) :=
  do _ <- assert (f <? length (faces m));
  do ns <- get (faces m) f;
  do _ <- assert (3 <=? length ns);
  do ps <- mmap (fun x => do ni <- get ns x; mmap (fun k => get (nodes m) (3 * ni + k)) (seq 0 3)) ns;
  Ok (hash (mean ps)).
