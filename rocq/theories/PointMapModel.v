(* Model of src/IntPointMap.hh.  A point is the list of its coordinates, so the
   Dimension template argument is the number of containers.  IntType is modelled by Z
   (p +- tol does not overflow). *)
From Verif Require Import Base StdAlg.

(* Container, IntPointMap.hh line 27 *)
Definition container := list (Z * list nat).

(* mCoords2IDs, mtol, mCurrentID, lines 28-30 *)
Record ipmap := mkIpmap { coords : list container; mtol : Z; current : nat }.

(* constructor, lines 35-38 *)
Definition ipm_new (D : nat) (tol : Z) : ipmap := mkIpmap (repeat [] D) tol 0.

(* std::lower_bound / std::upper_bound with ComparePairByFirstElement: the position of the
   first entry with first >= v (resp. > v).  The library only promises this for a range
   sorted by first; [ipm_sorted] in PointMapProofs shows that the containers always are. *)
Fixpoint lower_bound (c : container) (v : Z) : nat :=
  match c with
  | [] => 0
  | (k, _) :: t => if (k <? v)%Z then S (lower_bound t v) else 0
  end.
Fixpoint upper_bound (c : container) (v : Z) : nat :=
  match c with
  | [] => 0
  | (k, _) :: t => if (v <? k)%Z then 0 else S (upper_bound t v)
  end.

(* the iterator range [lo, up) *)
Definition slice (c : container) (lo up : nat) : container := firstn (up - lo) (skipn lo c).

(* lines 64-71 and 101-108: record the id under coordinate x *)
Definition add_id (c : container) (lo up : nat) (x : Z) (id : nat) : container :=
  let itr := lo + lower_bound (slice c lo up) x in
  match nth_error c itr with
  | Some (k, ids) =>
      if (k =? x)%Z then upd c itr (k, ids ++ [id])
      else firstn itr c ++ (x, [id]) :: skipn itr c
  | None => firstn itr c ++ (x, [id]) :: skipn itr c
  end.

(* lowers / uppers, lines 49-58 *)
Definition bounds (tol : Z) (c : container) (x : Z) : nat * nat :=
  (lower_bound c (x - tol)%Z, upper_bound c (x + tol)%Z).

(* the flag "empty", lines 47, 56 *)
Fixpoint some_empty (tol : Z) (cs : list container) (p : list Z) : bool :=
  match cs, p with
  | c :: cs, x :: p => let (lo, up) := bounds tol c x in (lo =? up) || some_empty tol cs p
  | _, _ => false
  end.

(* dimIDs, lines 83-89 and 149-153 *)
Definition dimIDs (tol : Z) (c : container) (x : Z) : list nat :=
  let (lo, up) := bounds tol c x in sort (flat_map snd (slice c lo up)).

(* the update of every dimension, lines 63-72 and 100-109 *)
Fixpoint add_all (tol : Z) (cs : list container) (p : list Z) (id : nat) : list container :=
  match cs, p with
  | c :: cs, x :: p => let (lo, up) := bounds tol c x in
                       add_id c lo up x id :: add_all tol cs p id
  | _, _ => []
  end.

(* lines 93-114 for dimensions 1, 2, ...; None = the intersection became empty *)
Fixpoint match_dims (tol : Z) (cs : list container) (p : list Z) (matching : list nat)
  : option (list nat) :=
  match cs, p with
  | c :: cs, x :: p =>
      match set_inter matching (dimIDs tol c x) with
      | [] => None
      | inter => match_dims tol cs p inter
      end
  | _, _ => Some matching
  end.

(* index, lines 43-126 *)
Definition index (m : ipmap) (p : list Z) : res (nat * ipmap) :=
  let new := Ok (current m,
                 mkIpmap (add_all (mtol m) (coords m) p (current m)) (mtol m) (S (current m))) in
  if some_empty (mtol m) (coords m) p then new
  else match coords m, p with
       | c0 :: cs, x0 :: p' =>
           match match_dims (mtol m) cs p' (dimIDs (mtol m) c0 x0) with
           | None => new
           | Some matching =>
               do _ <- assert (length matching =? 1);
               do k <- get matching 0;
               Ok (k, m)
           end
       | _, _ => UB                      (* Dimension = 0: not instantiated *)
       end.

(* have, lines 131-170.  Unlike index, matchingIDs keeps the ids of dimension 0. *)
Fixpoint have_dims (tol : Z) (cs : list container) (p : list Z) (matching : list nat) : bool :=
  match cs, p with
  | c :: cs, x :: p =>
      match set_inter matching (dimIDs tol c x) with
      | [] => false
      | _ => have_dims tol cs p matching
      end
  | _, _ => true
  end.

Definition have (m : ipmap) (p : list Z) : bool :=
  if some_empty (mtol m) (coords m) p then false
  else match coords m, p with
       | c0 :: cs, x0 :: p' => have_dims (mtol m) cs p' (dimIDs (mtol m) c0 x0)
       | _, _ => true
       end.

(* a history of index() calls on a fresh map: the ids returned and the final map *)
Fixpoint index_all (m : ipmap) (ps : list (list Z)) : res (list nat * ipmap) :=
  match ps with
  | [] => Ok ([], m)
  | p :: ps => do (k, m) <- index m p; do (ks, m) <- index_all m ps; Ok (k :: ks, m)
  end.
