(* Model of the two routines that put the edges of a face in order:
   internal::computeSortedFaceEdges (src/polytope_internal.hh lines 151-280) and
   computeSortedFaceNodes (src/TriangleTessellator.cc lines 163-255). *)
From Verif Require Import Base KeyMapModel.

(* std::map<int, std::set<E> > nodes2edges; E is the index of the edge in the first
   routine (std::set<unsigned>) and the edge itself in the second (std::set<EdgeHash>).
   [elt] is the order of the set, [ends] gives the two nodes of an edge. *)
Section Walk.
  Context {E : Type} (elt : E -> E -> bool) (ends : E -> Z * Z).

  (* entries of the map; operator[] on a missing key yields an empty set *)
  Definition n2e := list (Z * list E).
  Fixpoint at_node (m : n2e) (k : Z) : list E :=
    match m with
    | [] => []
    | (k', s) :: t => if (k =? k')%Z then s else at_node t k
    end.
  Fixpoint put_node (m : n2e) (k : Z) (s : list E) : n2e :=
    match m with
    | [] => [(k, s)]
    | (k', s') :: t => if (k =? k')%Z then (k, s) :: t else (k', s') :: put_node t k s
    end.
  (* std::set::insert and std::set::erase *)
  Fixpoint oinsert (e : E) (s : list E) : list E :=
    match s with
    | [] => [e]
    | x :: t => if elt e x then e :: s else if elt x e then x :: oinsert e t else s
    end.
  Definition oerase (e : E) (s : list E) : list E :=
    filter (fun x => negb (keyeq elt e x)) s.

  (* polytope_internal.hh lines 165-166, TriangleTessellator.cc lines 176-177 *)
  Definition add_edge (m : n2e) (e : E) : n2e :=
    let m := put_node m (fst (ends e)) (oinsert e (at_node m (fst (ends e)))) in
    put_node m (snd (ends e)) (oinsert e (at_node m (snd (ends e)))).
  (* polytope_internal.hh lines 203-204 and 237-238, TriangleTessellator.cc 198-199 and 222-223 *)
  Definition del_edge (m : n2e) (e : E) : n2e :=
    let m := put_node m (fst (ends e)) (oerase e (at_node m (fst (ends e)))) in
    put_node m (snd (ends e)) (oerase e (at_node m (snd (ends e)))).

  (* the loop  while (result.size() != nedges)  of polytope_internal.hh lines 233-240 and
     TriangleTessellator.cc lines 219-225; n is the number of edges still to come *)
  Fixpoint walk (n : nat) (m : n2e) (lastNode : Z) (result : list E) : res (list E) :=
    match n with
    | O => Ok result
    | S n =>
        match at_node m lastNode with
        | [] => Abort
        | e :: _ =>
            walk n (del_edge m e)
                 (if (fst (ends e) =? lastNode)%Z then snd (ends e) else fst (ends e))
                 (result ++ [e])
        end
    end.
End Walk.

(* CounterMap nodeUseCount after the loops of polytope_internal.hh lines 164-169 and
   TriangleTessellator.cc lines 175-180: how often a node occurs as an end of an edge.
   (Computed directly from the edge list instead of incrementally.) *)
Definition use_count (edges : list (Z * Z)) (k : Z) : nat :=
  length (filter (Z.eqb k) (flat_map (fun e => [fst e; snd e]) edges)).

Definition edge_at (edges : list (Z * Z)) (i : nat) : Z * Z := nth i edges (0, 0)%Z.

(* the node where the signed edge z starts / ends (lines 272-275) *)
Definition start_of (edges : list (Z * Z)) (z : Z) : Z :=
  if (0 <=? z)%Z then fst (edge_at edges (pid z)) else snd (edge_at edges (pid z)).
Definition end_of (edges : list (Z * Z)) (z : Z) : Z :=
  if (0 <=? z)%Z then snd (edge_at edges (pid z)) else fst (edge_at edges (pid z)).

(* polytope_internal.hh lines 250-258 *)
Fixpoint orient (edges : list (Z * Z)) (lastNode : Z) (l : list nat) : res (list Z) :=
  match l with
  | [] => Ok []
  | e :: t =>
      do _ <- assert ((fst (edge_at edges e) =? lastNode)%Z || (snd (edge_at edges e) =? lastNode)%Z);
      if (fst (edge_at edges e) =? lastNode)%Z then
        do r <- orient edges (snd (edge_at edges e)) t; Ok (Z.of_nat e :: r)
      else
        do r <- orient edges (fst (edge_at edges e)) t; Ok (Z.lnot (Z.of_nat e) :: r)
  end.

(* polytope_internal.hh lines 151-280; returns (flag, edges, result).  [result] is passed
   in empty, as all callers do.  Edge indices read from [result] are in range by
   construction, so edge_at does not distinguish out-of-range reads. *)
Definition computeSortedFaceEdges (edges : list (Z * Z)) : res (bool * list (Z * Z) * list Z) :=
  let nedges := length edges in
  do _ <- assert (2 <=? nedges);
  let use := use_count edges in
  let m := fold_left (add_edge Nat.ltb (edge_at edges)) (seq 0 nedges) [] in
  (* lines 195-208 *)
  do (result, m, hanging) <- mfold (fun '(result, m, hanging) i =>
      let '(a, b) := edge_at edges i in
      if (use a =? 1) || (use b =? 1) then
        do _ <- assert (((use a =? 1) && (use b =? 2)) || ((use a =? 2) && (use b =? 1)));
        Ok (result ++ [i], del_edge Nat.ltb (edge_at edges) m i,
            hanging ++ [if use a =? 1 then a else b])
      else Ok (result, m, hanging)) (seq 0 nedges) ([], m, []);
  do _ <- assert ((length result =? 0) || ((length hanging =? 2) && (length result =? 2)));
  (* lines 212-229 *)
  do (edges, result, lastNode) <-
    (if length hanging =? 2 then
       do h0 <- get hanging 0;
       do h1 <- get hanging 1;
       do r0 <- get result 0;
       do r1 <- get result 1;
       do newe <- hashEdge h0 h1;
       let '(a, b) := edge_at edges r1 in
       do _ <- assert ((use a =? 2) || (use b =? 2));
       Ok (edges ++ [newe], [r0; nedges; r1], if use a =? 2 then a else b)
     else Ok (edges, result, fst (edge_at edges 0)));
  let nedges := length edges in
  do result <- walk Nat.ltb (edge_at edges) (nedges - length result) m lastNode result;
  (* lines 249-258 *)
  do r0 <- get result 0;
  do r1 <- get result 1;
  do rest <- orient edges
       (if (fst (edge_at edges r0) =? fst (edge_at edges r1))%Z then fst (edge_at edges r0)
        else snd (edge_at edges r0)) (tl result);
  let result := Z.of_nat r0 :: rest in
  (* lines 261-278 *)
  do _ <- assert (length edges =? length result);
  do _ <- mfold (fun _ i =>
      do ii <- get result i;
      do jj <- get result ((i + 1) mod nedges);
      do _ <- assert (pid ii <? nedges);
      do _ <- assert (pid jj <? nedges);
      assert (end_of edges ii =? start_of edges jj)%Z) (seq 0 nedges) tt;
  Ok (negb (length hanging =? 0), edges, result).

(* TriangleTessellator.cc lines 163-255 *)
Definition computeSortedFaceNodes (edges : list (Z * Z)) : res (list Z) :=
  let nedges := length edges in
  if 1 <? nedges then
    let use := use_count edges in
    let ends := fun e : Z * Z => e in
    let m := fold_left (add_edge edge_lt ends) edges [] in
    (* lines 191-204 *)
    do (ordered, m, hang) <- mfold (fun '(ordered, m, hang) e =>
        let '(a, b) := e in
        if ((use a =? 1) && (use b =? 2)) || ((use a =? 2) && (use b =? 1)) then
          Ok (ordered ++ [e], del_edge edge_lt ends m e, true)
        else Ok (ordered, m, hang)) edges ([], m, false);
    do _ <- assert ((length ordered =? 0) || (length ordered =? 2));
    (* lines 208-216 *)
    do lastNode <-
      (if hang : bool then
         do e <- get ordered (length ordered - 1);
         do _ <- assert ((use (fst e) =? 2) || (use (snd e) =? 2));
         Ok (if use (fst e) =? 2 then fst e else snd e)
       else do e <- get edges 0; Ok (fst e));
    do ordered <- walk edge_lt ends (nedges - length ordered) m lastNode ordered;
    (* lines 228-245 *)
    do (first, i0) <-
      (if hang then
         do e0 <- get ordered 0;
         do e1 <- get ordered 1;
         Ok ([if use (fst e0) =? 1 then fst e0 else snd e0;
              if use (fst e1) =? 1 then fst e1 else snd e1], 1)
       else Ok ([], 0));
    do rest <- mmap (fun i =>
        do ei <- get ordered i;
        do ej <- get ordered ((i + 1) mod nedges);
        do _ <- assert ((fst ei =? fst ej)%Z || (fst ei =? snd ej)%Z
                     || (snd ei =? fst ej)%Z || (snd ei =? snd ej)%Z);
        Ok (if (fst ei =? fst ej)%Z || (fst ei =? snd ej)%Z then fst ei else snd ei))
      (seq i0 (nedges - i0));
    let result := first ++ rest in
    do _ <- assert ((hang && (length result =? nedges + 1)) || (negb hang && (length result =? nedges)));
    Ok result
  else if nedges =? 1 then do e <- get edges 0; Ok [fst e; snd e]
  else Ok [].
