(* What it means for a mesh to be well formed, and for one mesh to be the part of
   another selected by a cell mask.  Independent of how deleteCells works. *)
From Verif Require Import Base SerializeModel MeshModel.
From Coq Require Import Sorted.

Section Spec.
  Context {V : Type} (D : nat).

  (* face f (as a signed entry z of a cell) belongs to cell i with that orientation *)
  Definition sign_cell (z : Z) (i : nat) : Z :=
    if (0 <=? z)%Z then Z.of_nat i else Z.lnot (Z.of_nat i).
  Definition sign_face (z : Z) (f : nat) : Z :=
    if (0 <=? z)%Z then Z.of_nat f else Z.lnot (Z.of_nat f).

  Record WellFormed (m : mesh V) : Prop := {
    wf_nodes : exists n, length (nodes m) = D * n;
    wf_cells : forall i c z, nth_error (cells m) i = Some c -> In z c -> pid z < length (faces m);
    wf_faces : forall i f n, nth_error (faces m) i = Some f -> In n f -> D * n + D <= length (nodes m);
    wf_fcs : length (faceCells m) = length (faces m);
    wf_fc : forall i fc, nth_error (faceCells m) i = Some fc -> length fc = 1 \/ length fc = 2;
    (* cells and faceCells tell the same story, orientation included *)
    wf_cell_face : forall i c z fc, nth_error (cells m) i = Some c -> In z c ->
        nth_error (faceCells m) (pid z) = Some fc -> In (sign_cell z i) fc;
    wf_face_cell : forall f fc z, nth_error (faceCells m) f = Some fc -> In z fc ->
        exists c, nth_error (cells m) (pid z) = Some c /\ In (sign_face z f) c;
    (* communication lists *)
    wf_shared_size : length (sharedFaces m) = length (sharedNodes m);
    wf_shared_nodes : forall d l n, nth_error (sharedNodes m) d = Some l -> In n l ->
        D * n + D <= length (nodes m);
    wf_shared_faces : forall d l f, nth_error (sharedFaces m) d = Some l -> In f l ->
        f < length (faces m) }.

  (* coordinates of node n *)
  Definition node_at (m : mesh V) (n : nat) : list V := firstn D (skipn (D * n) (nodes m)).

  (* the sublist of l satisfying P, in order: [sublist_by P R l l'] relates the selected
     entries of l, in order, one to one to l' by R *)
  Inductive selected {A B} (P : A -> Prop) (R : A -> B -> Prop) : list A -> list B -> Prop :=
  | sel_nil : selected P R [] []
  | sel_yes a b l l' : P a -> R a b -> selected P R l l' -> selected P R (a :: l) (b :: l')
  | sel_no a l l' : ~ P a -> selected P R l l' -> selected P R (a :: l) l'.

  (* keepC/keepF/keepN list the old indices of the new cells, faces and nodes. *)
  (* new signed id z' stands for old signed id z *)
  Definition stands (keep : list nat) (z z' : Z) : Prop :=
    ((0 <= z)%Z <-> (0 <= z')%Z) /\ nth_error keep (pid z') = Some (pid z).

  Record PartOf (m m' : mesh V) (keepC keepF keepN : list nat) : Prop := {
    po_sortedC : StronglySorted lt keepC;
    po_sortedF : StronglySorted lt keepF;
    po_sortedN : StronglySorted lt keepN;
    (* exactly the faces of kept cells and the nodes of those faces survive *)
    po_F : forall f, In f keepF <->
        exists i c z, In i keepC /\ nth_error (cells m) i = Some c /\ In z c /\ pid z = f;
    po_N : forall n, In n keepN <->
        exists f ns, In f keepF /\ nth_error (faces m) f = Some ns /\ In n ns;
    (* every new cell is the old cell, renumbered *)
    po_ncells : length (cells m') = length keepC;
    po_cells : forall a i, nth_error keepC a = Some i ->
        exists c c', nth_error (cells m) i = Some c /\ nth_error (cells m') a = Some c' /\
                     Forall2 (stands keepF) c c';
    (* every new face is the old face, renumbered *)
    po_nfaces : length (faces m') = length keepF;
    po_faces : forall a f, nth_error keepF a = Some f ->
        exists ns ns', nth_error (faces m) f = Some ns /\ nth_error (faces m') a = Some ns' /\
                       Forall2 (fun n n' => nth_error keepN n' = Some n) ns ns';
    (* every new node has the old coordinates *)
    po_nnodes : length (nodes m') = D * length keepN;
    po_nodes : forall a n, nth_error keepN a = Some n -> node_at m' a = node_at m n;
    (* faceCells: the surviving entries in order *)
    po_nfc : length (faceCells m') = length keepF;
    po_fc : forall a f, nth_error keepF a = Some f ->
        exists fc fc', nth_error (faceCells m) f = Some fc /\ nth_error (faceCells m') a = Some fc' /\
                       selected (fun z => In (pid z) keepC) (stands keepC) fc fc';
    (* communication lists: the surviving entries in order *)
    po_nsn : length (sharedNodes m') = length (sharedNodes m);
    po_sn : forall d l, nth_error (sharedNodes m) d = Some l ->
        exists l', nth_error (sharedNodes m') d = Some l' /\
                   selected (fun n => In n keepN) (fun n n' => nth_error keepN n' = Some n) l l';
    po_nsf : length (sharedFaces m') = length (sharedFaces m);
    po_sf : forall d l, nth_error (sharedFaces m) d = Some l ->
        exists l', nth_error (sharedFaces m') d = Some l' /\
                   selected (fun f => In f keepF) (fun f f' => nth_error keepF f' = Some f) l l';
    (* the rest *)
    po_hull : convexHull m' = mkPLC [] [];
    po_nd : neighborDomains m' = neighborDomains m;
    po_bn : boundaryNodes m' = boundaryNodes m;
    po_bf : boundaryFaces m' = boundaryFaces m }.
End Spec.
