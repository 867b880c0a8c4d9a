(* Model of SerialDistributedTessellator::computeDistributedTessellation,
   src/SerialDistributedTessellator.cc.  The doubles are kept as bit patterns (TDouble). *)
From Verif Require Import Base StdAlg SerializeModel MeshModel CollModel.

(* std::upper_bound and std::lower_bound on a sorted range, as a position *)
Fixpoint upper_bound (l : list nat) (v : nat) : nat :=
  match l with [] => 0 | x :: t => if v <? x then 0 else S (upper_bound t v) end.
Fixpoint lower_bound (l : list nat) (v : nat) : nat :=
  match l with [] => 0 | x :: t => if x <? v then S (lower_bound t v) else 0 end.

(* ownerRank, lines 39-49 *)
Definition ownerRank (icell : nat) (offs : list nat) : res nat :=
  do _ <- assert (1 <? length offs);
  do b <- get offs (length offs - 1);
  do _ <- assert (icell <? b);
  let p := upper_bound offs icell in
  do _ <- assert ((0 <? p) && (p <? length offs));
  Ok (p - 1).

(* lines 92-105, from the sending ranks in procs on; buf is localBuffer.  bufSize is unsigned. *)
Fixpoint gather {A} (D : nat) (buf : list Z) (procs : list nat) (gens : list Z) (offs : list nat)
                (k : list Z -> list nat -> cprog A) : cprog A :=
  match procs with
  | [] => k gens offs
  | p :: procs =>
      CBcast p 1 [usize buf] (fun sz => match sz with
      | [bufSize] =>
          CBcast p (Z.to_nat bufSize) (resize 0%Z (Z.to_nat bufSize) buf) (fun b =>
            clift (deserialize (TVec TDouble) true gens b) (fun '(g, rest) =>
            clift (assert (isnil rest)) (fun _ =>
            gather D buf procs g (offs ++ [length g / D]) k)))
      | _ => CRet UB
      end)
  end.

(* std::map<unsigned, vector<unsigned> >: keys in order; m[k].push_back(v) *)
Fixpoint mpush (k v : nat) (m : list (nat * list nat)) : list (nat * list nat) :=
  match m with
  | [] => [(k, [v])]
  | (k', l) :: t => if k <? k' then (k, [v]) :: m else if k =? k' then (k', l ++ [v]) :: t else (k', l) :: mpush k v t
  end.

(* lines 131-149 *)
Definition shareNodes {V} (D : nat) (m : mesh V) (offs : list nat) (me : nat) : res (list (nat * list nat)) :=
  do nodeCells <- computeNodeCells D m;
  do lo <- get offs me; do hi <- get offs (me + 1);
  mfold (fun mp icell =>
    do c <- get (cells m) icell;
    mfold (fun mp z =>
      do f <- get (faces m) (pid z);
      mfold (fun mp x =>
        do cs <- get nodeCells x;
        mfold (fun mp oc => do o <- ownerRank oc offs; Ok (if o =? me then mp else mpush o x mp)) cs mp) f mp) c mp)
    (seq lo (hi - lo)) [].

(* one pass of the loop of lines 165-187; sf is mesh.sharedFaces *)
Definition shareFace {V} (m : mesh V) (offs : list nat) (me : nat) (nd : list nat) (icell : nat) (sf : list (list nat)) (z : Z) : res (list (list nat)) :=
  do fc <- get (faceCells m) (pid z);
  do _ <- assert ((length fc =? 1) || (length fc =? 2));
  do c0 <- get fc 0;
  let c1 := nth 1 fc 0%Z in
  do _ <- assert ((pid c0 =? icell) || ((length fc =? 2) && (pid c1 =? icell)));
  if length fc =? 2 then
    do o <- ownerRank (if pid c0 =? icell then pid c1 else pid c0) offs;
    if o =? me then Ok sf else
      let j := lower_bound nd o in
      do _ <- assert (j <? length nd);
      do l <- get sf j;
      set sf j (l ++ [pid z])
  else Ok sf.

(* lines 162-188 *)
Definition shareFaces {V} (m : mesh V) (offs : list nat) (me : nat) (nd : list nat) : res (list (list nat)) :=
  do lo <- get offs me; do hi <- get offs (me + 1);
  mfold (fun sf icell => do c <- get (cells m) icell; mfold (shareFace m offs me nd icell) c sf)
    (seq lo (hi - lo)) (resize [] (length nd) (sharedFaces m)).

(* lines 190-194: unique() returns end() when no two neighbours are equal *)
Definition sortFaces (l : list nat) : res (list nat) :=
  let l := StdAlg.sort l in
  do _ <- assert (length (unique l) =? length l); Ok l.

(* lines 130-194: the neighbors, the shared nodes and the shared faces *)
Definition shareLists {V} (D : nat) (m : mesh V) (offs : list nat) (me : nat) : res (list nat * list (list nat) * list (list nat)) :=
  do mp <- shareNodes D m offs me;
  let nd := neighborDomains m ++ map fst mp in
  let nd := StdAlg.sort nd in
  (* lines 154-160: sharedNodes[neighbor] creates an empty list for an unknown key *)
  let sn := sharedNodes m ++ map (fun s => unique (StdAlg.sort (match find (fun e => fst e =? s) mp with Some e => snd e | None => [] end))) nd in
  do sf <- shareFaces m offs me nd;
  do sf <- mmap sortFaces sf;
  Ok (nd, sn, sf).

(* lines 196-201 *)
Definition ownMask (offs : list nat) (me ncells : nat) : res (list nat) :=
  do lo <- get offs me; do hi <- get offs (me + 1);
  if (lo <=? hi) && (hi <=? ncells) then Ok (repeat 0 lo ++ repeat 1 (hi - lo) ++ repeat 0 (ncells - hi)) else UB.

(* lines 130-201 for rank me *)
Definition cull {V} (D : nat) (m : mesh V) (offs : list nat) (me : nat) : res (mesh V) :=
  do (nd, sn, sf) <- shareLists D m offs me;
  do mask <- ownMask offs me (length (cells m));
  deleteCells D (mkMesh (nodes m) (cells m) (faces m) (boundaryNodes m) (boundaryFaces m) (faceCells m) (convexHull m) nd sn sf) mask.

(* lines 77-201; tess is tessellationWrapper, any function of the generators.  The check of
   lines 215-219 is modelled elsewhere. *)
Definition serialDist {V} (D n : nat) (tess : list Z -> res (mesh V)) (me : nat) (points : list Z) : cprog (mesh V) :=
  gather D (serialize (TVec TDouble) points) (seq 0 n) [] [0] (fun gens offs =>
    clift (assert (length offs =? n + 1)) (fun _ =>
    clift (get offs (length offs - 1)) (fun b =>
    clift (assert (b =? length gens / D)) (fun _ =>
    clift (tess gens) (fun m => CRet (cull D m offs me)))))).
