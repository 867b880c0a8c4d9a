(* Who owns which cell of a mesh, and what two owners share. *)
From Verif Require Import Base SerializeModel MeshModel MeshSpec.
From Coq Require Import Sorted.

(* ranks 0, 1, ... hold the points pts 0, pts 1, ... (D numbers per point); the gathered points are
   theirs one after the other *)
Definition gathered (n : nat) (pts : nat -> list Z) : list Z := flat_map pts (seq 0 n).
(* the number of points of the ranks before r *)
Definition before (D : nat) (pts : nat -> list Z) (r : nat) : nat := length (gathered r pts) / D.
(* gathered point (or cell) i comes from rank r *)
Definition Owns (D : nat) (pts : nat -> list Z) (r i : nat) : Prop := before D pts r <= i < before D pts (S r).

Section Sharing.
  Context {V : Type} (m : mesh V) (owns : nat -> nat -> Prop).
  (* node x is a node of a face of cell i *)
  Definition NodeOf (i x : nat) : Prop := exists c z ns, nth_error (cells m) i = Some c /\ In z c /\ nth_error (faces m) (pid z) = Some ns /\ In x ns.
  (* face f is a face of cell i *)
  Definition FaceOf (i f : nat) : Prop := exists c z, nth_error (cells m) i = Some c /\ In z c /\ pid z = f.
  (* nodes of rank r; nodes and faces of both r and s *)
  Definition RankNode (r x : nat) : Prop := exists i, owns r i /\ NodeOf i x.
  Definition SharedNode (r s x : nat) : Prop := RankNode r x /\ RankNode s x.
  Definition SharedFace (r s f : nat) : Prop := (exists i, owns r i /\ FaceOf i f) /\ (exists i, owns s i /\ FaceOf i f).
  (* s is another rank with a node in common *)
  Definition Neighbor (r s : nat) : Prop := s <> r /\ exists x, SharedNode r s x.
End Sharing.

(* a mesh as a tessellator makes it: well formed, faces with nodes, no face twice in a cell, no
   communication lists yet *)
Record Fresh {V} (D : nat) (m : mesh V) : Prop := {
  fr_wf : WellFormed D m;
  fr_faces : forall f ns, nth_error (faces m) f = Some ns -> ns <> [];
  fr_cells : forall i c, nth_error (cells m) i = Some c -> NoDup c;
  fr_lists : neighborDomains m = [] /\ sharedNodes m = [] /\ sharedFaces m = [] }.

(* nd, sn and sf are the neighbors of rank r among n ranks and what it shares with each of them, by
   global number, in increasing order *)
Record SharedLists {V} (n : nat) (m : mesh V) (owns : nat -> nat -> Prop) (r : nat) (nd : list nat) (sn sf : list (list nat)) : Prop := {
  sl_sorted : StronglySorted lt nd;
  sl_nd : forall s, In s nd <-> s < n /\ Neighbor m owns r s;
  sl_sizes : length sn = length nd /\ length sf = length nd;
  sl_sn : forall i s l, nth_error nd i = Some s -> nth_error sn i = Some l -> StronglySorted lt l /\ forall x, In x l <-> SharedNode m owns r s x;
  sl_sf : forall i s l, nth_error nd i = Some s -> nth_error sf i = Some l -> StronglySorted lt l /\ forall f, In f l <-> SharedFace m owns r s f }.

(* the mesh with communication lists *)
Definition withLists {V} (m : mesh V) nd sn sf : mesh V :=
  mkMesh (nodes m) (cells m) (faces m) (boundaryNodes m) (boundaryFaces m) (faceCells m) (convexHull m) nd sn sf.

(* l names, in the numbering of one rank, the elements xs of the whole mesh *)
Definition Stand (keep : list nat) (l xs : list nat) : Prop := Forall2 (fun j x => nth_error keep j = Some x) l xs.

(* m' is what rank r keeps of m: its own cells kC with their faces kF and nodes kN *)
Record Domain {V} (D n : nat) (m : mesh V) (owns : nat -> nat -> Prop) (r : nat) (m' : mesh V) (kC kF kN : list nat) : Prop := {
  dm_part : exists nd sn sf, PartOf D (withLists m nd sn sf) m' kC kF kN;
  dm_cells : forall i, In i kC <-> owns r i;
  dm_wf : WellFormed D m';
  dm_sorted : StronglySorted lt (neighborDomains m');
  dm_nd : forall s, In s (neighborDomains m') <-> s < n /\ Neighbor m owns r s;
  dm_sizes : length (sharedNodes m') = length (neighborDomains m') /\ length (sharedFaces m') = length (neighborDomains m');
  dm_sn : forall i s l, nth_error (neighborDomains m') i = Some s -> nth_error (sharedNodes m') i = Some l ->
     exists xs, Stand kN l xs /\ StronglySorted lt xs /\ forall x, In x xs <-> SharedNode m owns r s x;
  dm_sf : forall i s l, nth_error (neighborDomains m') i = Some s -> nth_error (sharedFaces m') i = Some l ->
     exists xs, Stand kF l xs /\ StronglySorted lt xs /\ forall f, In f xs <-> SharedFace m owns r s f }.
