(* How the objects of a Silo file are read, and what a file should say about a mesh. *)
From Coq Require Import String.
From Verif Require Import Base SerializeModel MeshModel MeshSpec SiloModel.
Local Open Scope nat_scope.

(* a list of polygonal zones, each its number of nodes and then its nodes *)
Inductive Zones : list Z -> list (list nat) -> Prop :=
| zones_nil : Zones [] []
| zones_cons r l rs : Zones l rs -> Zones (Z.of_nat (length r) :: map Z.of_nat r ++ l) (r :: rs).
(* a flat list cut into pieces of the given sizes *)
Inductive Pieces {A} : list nat -> list A -> list (list A) -> Prop :=
| pieces_nil : Pieces [] [] []
| pieces_cons r ks l rs : Pieces ks l rs -> Pieces (length r :: ks) (r ++ l) (r :: rs).
(* the elements of a compound array lie one after the other *)
Definition Element (names : list string) (lengths values : list Z) (name : string) (l : list Z) : Prop :=
  exists n0 n1 l0 l1 pre post, names = n0 ++ name :: n1 /\ lengths = l0 ++ Z.of_nat (length l) :: l1 /\ length n0 = length l0 /\
    values = pre ++ l ++ post /\ Z.of_nat (length pre) = fold_right Z.add 0%Z l0.

Section Spec.
  Context {V : Type}.
  (* where a cell's walk along an entry of its list of faces starts and ends *)
  Definition Starts (m : mesh V) (z : Z) (n : nat) : Prop := exists ns, nth_error (faces m) (pid z) = Some ns /\ nth_error ns (if (0 <=? z)%Z then 0 else 1) = Some n.
  Definition Ends (m : mesh V) (z : Z) (n : nat) : Prop := exists ns, nth_error (faces m) (pid z) = Some ns /\ nth_error ns (if (0 <=? z)%Z then 1 else 0) = Some n.
  (* a planar mesh: faces are segments and the faces of a cell are a closed walk *)
  Record Planar (m : mesh V) : Prop := {
    pl_wf : WellFormed 2 m;
    pl_faces : forall ns, In ns (faces m) -> length ns = 2;
    pl_cells : forall c, In c (cells m) -> c <> [];
    pl_walk : forall c j z z', In c (cells m) -> nth_error c j = Some z -> nth_error c (S j mod length c) = Some z' -> exists n, Ends m z n /\ Starts m z' n;
    pl_bound : forall f, In f (boundaryFaces m) -> f < length (faces m) }.
  (* r goes once around cell c, along its faces *)
  Definition Traces (m : mesh V) (c : list Z) (r : list nat) : Prop :=
    length r = S (length c) /\ nth_error r 0 = nth_error r (length c) /\
    forall j z, nth_error c j = Some z -> exists a b, Starts m z a /\ Ends m z b /\ nth_error r j = Some a /\ nth_error r (S j) = Some b.
  (* the coordinates, one array per direction *)
  Definition Coordinates (D : nat) (m : mesh V) (xs : list (list V)) (n : nat) : Prop :=
    length (nodes m) = D * n /\ length xs = D /\
    forall k x, nth_error xs k = Some x -> length x = n /\ forall i, i < n -> nth_error x i = nth_error (nodes m) (D * i + k).

  (* the arrays of fields hold at least as many values as the writer takes *)
  Definition Long (D : nat) (m : mesh V) (e : extras V) : Prop :=
    (forall f, In f (nodeF e) -> length (nodes m) / D <= length (snd f)) /\ (forall f, In f (edgeF e) -> length (faces m) <= length (snd f)) /\
    (forall f, In f (faceF e) -> length (faces m) <= length (snd f)) /\ (forall f, In f (cellF e) -> length (cells m) <= length (snd f)).

  Definition fieldNames (e : extras V) : list string := map fst (nodeF e) ++ map fst (edgeF e) ++ map fst (faceF e) ++ map fst (cellF e).
  Definition reserved : list string := ["boundary_faces"; "mesh"; "mesh_zonelist"; "conn"; "convexhull"; "node_tags"; "edge_tags"; "face_tags"; "cell_tags"]%string.
End Spec.

(* ---- parallel runs ---- *)
(* no name is longer than the writer's buffers *)
Definition Fits (directory filePrefix : string) (cycle : Z) (nproc : nat) (field : string) : Prop :=
  forall i c, i < nproc -> c < nproc ->
    (String.length ((if string_dec directory "" then filePrefix ++ "-" ++ dec nproc else directory) ++ "/" ++ dec i ++ "/" ++ strip filePrefix ++ ending cycle ++ ":/domain_" ++ dec c ++ "/" ++ field) < 1024)%string.
(* the name, relative to the master directory, of something that rank r puts into its block *)
Definition Names (directory filePrefix : string) (cycle : Z) (nproc nf r : nat) (field name : string) : Prop :=
  (masterDir directory filePrefix nproc ++ "/" ++ name = fileOf directory filePrefix cycle nproc nf r ++ ":/" ++ blockOf nproc nf r ++ "/" ++ field)%string.
(* what a reader finds under a name: no other object of the file has it *)
Definition Found {V} (f : silo V) (name : string) (o : obj V) : Prop := In (name, o) f /\ forall o', In (name, o') f -> o' = o.
(* the names of fields are different from each other and from the writer's own *)
Definition Apart {V} (e : extras V) : Prop := NoDup (reserved ++ fieldNames e).
(* two files say the same *)
Definition Same {V} (f f' : silo V) : Prop := forall name o, Found f name o <-> Found f' name o.
(* a spatial mesh *)
Record Spatial {V} (m : mesh V) : Prop := {
  sp_wf : WellFormed 3 m;
  sp_bound : forall f, In f (boundaryFaces m) -> f < length (faces m) }.
(* the edges of a spatial mesh: pairs of nodes that follow each other around a face, smaller first *)
Definition EdgesOf {V} (m : mesh V) (es : list (nat * nat)) : Prop := NoDup es /\
  forall a b, In (a, b) es <-> a < b /\ exists ns j x y, In ns (faces m) /\ nth_error ns j = Some x /\ nth_error ns (S j mod length ns) = Some y /\ ((x = a /\ y = b) \/ (x = b /\ y = a)).
