(* Ranks that agree on which edges of their shared border to collapse. *)
From Verif Require Import Base SerializeModel MeshModel MeshSpec MeshEditorSpec.
From Coq Require Import QArith.
Local Open Scope nat_scope.

(* what a rank has: the number of its nodes, its edges (pairs of nodes), for each edge 1 (keep) or 0
   (collapse), its neighbors, and for each neighbor the nodes they share, listed by both in the same
   order *)
Record piece := mkPiece { pnodes : nat; pedges : list (nat * nat); pmask : list nat; pnbrs : list nat; plists : list (list nat) }.

Definition Shares (P : nat -> piece) (r s : nat) (l : list nat) : Prop :=
  exists i, nth_error (pnbrs (P r)) i = Some s /\ nth_error (plists (P r)) i = Some l.
(* edge i of E joins nodes a and b *)
Definition Joins (E : list (nat * nat)) (a b i : nat) : Prop := nth_error E i = Some (a, b) \/ nth_error E i = Some (b, a).
(* edge i of E joins the nodes at places p and q of l *)
Definition Between (E : list (nat * nat)) (l : list nat) (p q i : nat) : Prop :=
  exists a b, nth_error l p = Some a /\ nth_error l q = Some b /\ Joins E a b i.

Record Joined (n : nat) (P : nat -> piece) : Prop := {
  jn_edges : forall r, r < n -> NoDup (pedges (P r)) /\ forall a b, In (a, b) (pedges (P r)) -> a < b /\ b < pnodes (P r);
  jn_mask : forall r, r < n -> length (pmask (P r)) = length (pedges (P r)) /\ forall v, In v (pmask (P r)) -> v = 0 \/ v = 1;
  (* all masks together fit in a buffer *)
  jn_small : forall r, r < n -> (Z.of_nat (length (pnbrs (P r)) * (4 + 4 * length (pedges (P r)))) < 2 ^ 32)%Z;
  jn_nbrs : forall r, r < n -> NoDup (pnbrs (P r)) /\ length (plists (P r)) = length (pnbrs (P r));
  jn_range : forall r s, r < n -> In s (pnbrs (P r)) -> s < n;
  jn_lists : forall r s l, r < n -> Shares P r s l -> NoDup l /\ (forall x, In x l -> x < pnodes (P r)) /\
     exists l', Shares P s r l' /\ length l' = length l /\
       (* the same edges between shared nodes *)
       forall p q, (exists i, Between (pedges (P r)) l p q i) <-> (exists i, Between (pedges (P s)) l' p q i) }.

(* which node of an edge a-b stays (k) and which goes (d), when l are the nodes shared: a shared node
   does not go unless the other is shared as well and comes before *)
Definition StayGo (l : list nat) (a b k d : nat) : Prop :=
  ((k = a /\ d = b) \/ (k = b /\ d = a)) /\
  (In d l -> exists p q, p < q /\ nth_error l p = Some k /\ nth_error l q = Some d) /\
  (~ In a l -> ~ In b l -> k = a).

(* a rank has settled on edge masks em, node masks nm and, for every node, the node it moves to;
   pairs are the collapses (node that stays, node that goes), clean that there are none *)
Record Settled (p : piece) (l : list nat) (em nm col : list nat) (clean : bool) (pairs : list (nat * nat)) : Prop := {
  se_pairs : forall k d, In (k, d) pairs <-> exists i a b, nth_error (pedges p) i = Some (a, b) /\ nth_error em i = Some 0 /\ StayGo l a b k d;
  se_em : length em = length (pedges p) /\ forall v, In v em -> v = 0 \/ v = 1;
  se_clean : clean = true <-> pairs = [];
  se_nm : length nm = pnodes p /\ forall x v, nth_error nm x = Some v -> (v = 0 /\ removed pairs x) \/ (v = 1 /\ ~ removed pairs x);
  se_col : clean = false -> length col = pnodes p /\ forall x v, nth_error col x = Some v -> In (v, x) pairs \/ (v = x /\ ~ removed pairs x) }.

(* an edge two ranks share is kept if either wants to keep it *)
Definition SameMasks (P : nat -> piece) (em : nat -> list nat) (r s : nat) (l l' : list nat) : Prop :=
  forall p q i i', Between (pedges (P r)) l p q i -> Between (pedges (P s)) l' p q i' ->
    exists x y, nth_error (pmask (P r)) i = Some x /\ nth_error (pmask (P s)) i' = Some y /\
      nth_error (em r) i = Some (Nat.max x y) /\ nth_error (em s) i' = Some (Nat.max x y).
(* nodes at the same place have the same fate *)
Definition SameFate (pairs pairs' : list (nat * nat)) (l l' : list nat) : Prop :=
  (forall p q k d k' d', nth_error l p = Some k -> nth_error l q = Some d -> nth_error l' p = Some k' -> nth_error l' q = Some d' ->
     (In (k, d) pairs <-> In (k', d') pairs')) /\
  (forall p x x', nth_error l p = Some x -> nth_error l' p = Some x' -> (removed pairs x <-> removed pairs' x')) /\
  (* a shared node moves to a shared node *)
  (forall p x k, nth_error l p = Some x -> In (k, x) pairs -> In k l).

(* the nodes that the mesh of rank r lists as shared with rank s *)
Definition MeshShares (m : nat -> mesh Q) (r s : nat) (l : list nat) : Prop :=
  exists i, nth_error (neighborDomains (m r)) i = Some s /\ nth_error (sharedNodes (m r)) i = Some l.

(* planar meshes on n ranks that have the nodes and the segments of their shared borders in common *)
Record SharedBorders (n : nat) (m : nat -> mesh Q) : Prop := {
  sb_mesh : forall r, r < n -> WellFormed 2 (m r) /\ Planar (m r) /\ simple_border (m r);
  sb_small : forall r, r < n -> (Z.of_nat (length (neighborDomains (m r)) * (4 + 4 * length (faces (m r)))) < 2 ^ 32)%Z;
  sb_nbrs : forall r, r < n -> NoDup (neighborDomains (m r)) /\ length (sharedNodes (m r)) = length (neighborDomains (m r));
  sb_range : forall r s, r < n -> In s (neighborDomains (m r)) -> s < n;
  sb_lists : forall r s l, r < n -> MeshShares m r s l -> NoDup l /\ exists l', MeshShares m s r l' /\ length l' = length l /\
     forall p q a b a' b', nth_error l p = Some a -> nth_error l q = Some b -> nth_error l' p = Some a' -> nth_error l' q = Some b' ->
       ((exists f, segment (m r) f a b) <-> (exists f, segment (m s) f a' b')) }.

(* edge a-b is collapsed, whichever node stays *)
Definition collapses (pairs : list (nat * nat)) (a b : nat) : Prop := In (a, b) pairs \/ In (b, a) pairs.

(* first r are the collapses rank r wants, pairs r those it carries out: all it wants, less those of
   shared edges that the other rank does not want *)
Record Agreement (tol : Q) (n : nat) (m : nat -> mesh Q) (first pairs : nat -> list (nat * nat)) : Prop := {
  ag_first : forall r, r < n -> GoodCollapses tol (m r) (first r);
  (* every node takes part in at most one collapse *)
  ag_once : forall r, r < n -> NoDup (flat_map (fun p => [fst p; snd p]) (pairs r));
  ag_own : forall r a b, r < n -> (forall s l, MeshShares m r s l -> In a l -> In b l -> False) ->
     (collapses (pairs r) a b <-> collapses (first r) a b);
  ag_shared : forall r s l l' p q a b a' b', r < n -> MeshShares m r s l -> MeshShares m s r l' ->
     nth_error l p = Some a -> nth_error l q = Some b -> nth_error l' p = Some a' -> nth_error l' q = Some b' ->
     (collapses (pairs r) a b <-> collapses (first r) a b /\ collapses (first s) a' b');
  (* a shared node goes only if the node that stays is shared as well *)
  ag_stays : forall r s l k d, r < n -> MeshShares m r s l -> In (k, d) (pairs r) -> In d l -> In k l;
  (* the ranks let the same nodes go *)
  ag_fate : forall r s l l', r < n -> MeshShares m r s l -> MeshShares m s r l' -> SameFate (pairs r) (pairs s) l l' }.

(* nodes at the same place of two lists are at the same point *)
Definition SamePoints (m m' : mesh Q) (l l' : list nat) : Prop := Forall2 (fun x x' => pos m x = pos m' x') l l'.
