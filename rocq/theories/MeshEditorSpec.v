(* What it means for one planar mesh to be obtained from another by collapsing short edges.
   Independent of how cleanEdges works. *)
From Verif Require Import Base SerializeModel MeshModel MeshSpec MeshEditorModel.
From Coq Require Import Sorted QArith.
Local Open Scope nat_scope.

(* a planar mesh: faces are segments between two different nodes, and no cell lists a face twice *)
Record Planar (m : mesh Q) : Prop := {
  pl_face : forall f ns, nth_error (faces m) f = Some ns -> exists a b, ns = [a; b] /\ a <> b;
  pl_cell : forall i c, nth_error (cells m) i = Some c -> NoDup (map pid c) }.

(* face f is a segment with ends a and b *)
Definition segment (m : mesh Q) (f a b : nat) : Prop :=
  nth_error (faces m) f = Some [a; b] \/ nth_error (faces m) f = Some [b; a].

(* a face on the border: only one cell uses it *)
Definition border_face (m : mesh Q) (f : nat) : Prop :=
  exists fc, nth_error (faceCells m) f = Some fc /\ length fc = 1.
Definition border_node (m : mesh Q) (n : nat) : Prop :=
  exists f b, border_face m f /\ segment m f n b.

(* the border is made of simple closed curves: every border node is on exactly two border faces *)
Definition simple_border (m : mesh Q) : Prop :=
  forall n, border_node m n -> exists f0 f1, f0 <> f1 /\
    forall f, (border_face m f /\ exists b, segment m f n b) <-> (f = f0 \/ f = f1).

Definition pos (m : mesh Q) (n : nat) : list Q := node_at 2 m n.
Definition len2 (m : mesh Q) (a b : nat) : Q := dist2 (pos m a) (pos m b).

(* a corner of the border: the two border segments at the node do not continue one another
   (geometry::collinear is the library's own collinearity test) *)
Definition corner (m : mesh Q) (n : nat) : Prop :=
  exists f g p q, border_face m f /\ border_face m g /\ segment m f n p /\ segment m g n q /\
                  collinear (pos m n) (pos m p) (pos m q) = false.

(* the segment a-b is an edge of cell i *)
Definition cell_edge (m : mesh Q) (i a b : nat) : Prop :=
  exists c z, nth_error (cells m) i = Some c /\ In z c /\ segment m (pid z) a b.

(* a-b is shorter than tol times the longest edge of some cell it belongs to
   (lengths squared) *)
Definition short (m : mesh Q) (tol : Q) (a b : nat) : Prop :=
  exists i c d, cell_edge m i a b /\ cell_edge m i c d /\ (len2 m a b < tol * tol * len2 m c d)%Q.

(* [pairs] lists the collapses (node that stays, node that goes) *)
Record GoodCollapses (tol : Q) (m : mesh Q) (pairs : list (nat * nat)) : Prop := {
  (* every node takes part in at most one collapse, so the node that stays is not itself removed *)
  gc_once : NoDup (flat_map (fun p => [fst p; snd p]) pairs);
  (* only short edges are collapsed, never at a corner, and never a border node into the interior *)
  gc_chosen : forall k d, In (k, d) pairs ->
      short m tol k d /\ ~ corner m k /\ ~ corner m d /\ (border_node m d -> border_node m k);
  (* every short edge away from the corners is collapsed or touches a collapsed one *)
  gc_maximal : forall a b, short m tol a b -> ~ corner m a -> ~ corner m b ->
      exists k d, In (k, d) pairs /\ (a = k \/ a = d \/ b = k \/ b = d) }.

Definition removed (pairs : list (nat * nat)) (n : nat) : Prop := exists k, In (k, n) pairs.
(* where node n ends up *)
Definition goes_to (pairs : list (nat * nat)) (n n0 : nat) : Prop :=
  In (n0, n) pairs \/ (~ removed pairs n /\ n0 = n).

(* m' is m with the given collapses carried out and everything renumbered *)
Record Collapsed (m m' : mesh Q) (pairs : list (nat * nat)) (keepF keepN : list nat) : Prop := {
  co_sortedF : StronglySorted lt keepF;
  co_sortedN : StronglySorted lt keepN;
  co_N : forall n, In n keepN <-> 2 * n + 2 <= length (nodes m) /\ ~ removed pairs n;
  (* exactly the collapsed segments disappear *)
  co_F : forall f, In f keepF <->
      exists a b, nth_error (faces m) f = Some [a; b] /\ ~ In (a, b) pairs /\ ~ In (b, a) pairs;
  co_nnodes : length (nodes m') = 2 * length keepN;
  co_nodes : forall a n, nth_error keepN a = Some n -> node_at 2 m' a = node_at 2 m n;
  co_nfaces : length (faces m') = length keepF;
  co_faces : forall x f, nth_error keepF x = Some f ->
      exists ns ns', nth_error (faces m) f = Some ns /\ nth_error (faces m') x = Some ns' /\
        Forall2 (fun n n' => exists n0, goes_to pairs n n0 /\ nth_error keepN n' = Some n0) ns ns';
  co_nfc : length (faceCells m') = length keepF;
  co_fc : forall x f, nth_error keepF x = Some f -> nth_error (faceCells m') x = nth_error (faceCells m) f;
  co_ncells : length (cells m') = length (cells m);
  co_cells : forall i c, nth_error (cells m) i = Some c -> exists c', nth_error (cells m') i = Some c' /\
      selected (fun z => In (pid z) keepF) (stands keepF) c c';
  co_nsn : length (sharedNodes m') = length (sharedNodes m);
  co_sn : forall d l, nth_error (sharedNodes m) d = Some l -> exists l', nth_error (sharedNodes m') d = Some l' /\
      selected (fun n => In n keepN) (fun n n' => nth_error keepN n' = Some n) l l';
  co_nsf : length (sharedFaces m') = length (sharedFaces m);
  co_sf : forall d l, nth_error (sharedFaces m) d = Some l -> exists l', nth_error (sharedFaces m') d = Some l' /\
      selected (fun f => In f keepF) (fun f f' => nth_error keepF f' = Some f) l l';
  co_nd : neighborDomains m' = neighborDomains m;
  co_hull : convexHull m' = plc_new }.
