(* Model of the key-numbering helpers of src/polytope_internal.hh. *)
From Verif Require Import Base.

(* A std::map<Key, int, Comparator>, as the list of its entries.  Only find, size and
   insertion are used by addKeyToMap, so the tree order is not represented.
   find(k) locates the entry whose key is equivalent to k under the comparator,
   i.e. neither key precedes the other. *)
Section KeyMap.
  Context {K : Type} (lt : K -> K -> bool).

  Definition keymap := list (K * nat).

  Definition keyeq (a b : K) : bool := negb (lt a b) && negb (lt b a).

  Fixpoint find (k : K) (m : keymap) : option nat :=
    match m with
    | [] => None
    | (k', i) :: m => if keyeq k k' then Some i else find k m
    end.

  (* internal::addKeyToMap, src/polytope_internal.hh lines 89-102: an unknown key gets
     the current size of the map as its id. (int overflow of the size is not modelled.) *)
  Definition addKeyToMap (k : K) (m : keymap) : nat * keymap :=
    match find k m with
    | Some i => (i, m)
    | None => (length m, m ++ [(k, length m)])
    end.

  (* A history of calls: the ids returned, and the final map. *)
  Fixpoint addKeys (ks : list K) (m : keymap) : list nat * keymap :=
    match ks with
    | [] => ([], m)
    | k :: ks => let (i, m1) := addKeyToMap k m in
                 let (is, m2) := addKeys ks m1 in
                 (i :: is, m2)
    end.
End KeyMap.

(* operator< on std::pair<int,int>, the key order of edge maps. *)
Definition edge_lt (a b : Z * Z) : bool :=
  (fst a <? fst b)%Z || ((fst a =? fst b)%Z && (snd a <? snd b)%Z).

(* Point2::operator<, src/Point.hh lines 28-32: lexicographic on (x, y); the index
   member (third component here) does not take part. *)
Definition point2_lt (a b : Z * Z * nat) : bool :=
  (fst (fst a) <? fst (fst b))%Z ||
  ((fst (fst a) =? fst (fst b))%Z && (snd (fst a) <? snd (fst b))%Z).

(* Point3::operator<, src/Point.hh lines 100-106. *)
Definition point3_lt (a b : Z * Z * Z * nat) : bool :=
  let '(ax, ay, az, _) := a in
  let '(bx, by_, bz, _) := b in
  (ax <? bx)%Z || ((ax =? bx)%Z && (ay <? by_)%Z)
  || ((ax =? bx)%Z && (ay =? by_)%Z && (az <? bz)%Z).

(* PointComparator<CoordType>(fuzz) on Point2, src/Point.hh lines 171-179. *)
Definition fuzzy2_lt (fuzz : Z) (a b : Z * Z) : bool :=
  (fuzz <? fst b - fst a)%Z
  || ((Z.abs (fst b - fst a) <=? fuzz)%Z && (fuzz <? snd b - snd a)%Z).

(* internal::hashEdge, src/polytope_internal.hh lines 129-134. *)
Definition hashEdge (i j : Z) : res (Z * Z) :=
  do _ <- assert (negb (i =? j)%Z);
  Ok (if (i <? j)%Z then (i, j) else (j, i)).
