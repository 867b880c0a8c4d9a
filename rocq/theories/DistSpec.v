(* What one rank is to keep of the mesh of all generators it knows. *)
From Verif Require Import Base SerializeModel SerializeSpec MeshModel MeshSpec SerialDistSpec CheckModel.
From Coq Require Import Sorted.

(* cell i of the mesh belongs to the generator of rank s *)
Definition From_ (g2d : list nat) (s i : nat) : Prop := nth_error g2d i = Some s.

(* keys in order along l *)
Definition Ordered (key : nat -> list Z) (l : list nat) : Prop := StronglySorted (fun a b => lexlt (key b) (key a) = false) l.

(* m' is what rank me keeps of m; nd are the neighbors it talked to *)
Record Kept {V} (D : nat) (m : mesh V) (g2d : list nat) (me : nat) (nd : list nat) (nkey fkey : nat -> list Z) (m' : mesh V) (kC kF kN : list nat) : Prop := {
  (* its cells, with their faces and nodes, renumbered *)
  kp_part : PartOf D m (withLists m' [] [] []) kC kF kN;
  kp_cells : forall i, In i kC <-> From_ g2d me i;
  kp_wf : WellFormed D m';
  (* the neighbors it shares a node with *)
  kp_sorted : StronglySorted lt (neighborDomains m');
  kp_nd : forall s, In s (neighborDomains m') <-> In s nd /\ Neighbor m (From_ g2d) me s;
  kp_sizes : length (sharedNodes m') = length (neighborDomains m') /\ length (sharedFaces m') = length (neighborDomains m');
  (* all nodes and faces it shares with each, ordered by key *)
  kp_sn : forall i s l, nth_error (neighborDomains m') i = Some s -> nth_error (sharedNodes m') i = Some l ->
     exists xs, Stand kN l xs /\ NoDup xs /\ Ordered nkey xs /\ forall x, In x xs <-> SharedNode m (From_ g2d) me s x;
  kp_sf : forall i s l, nth_error (neighborDomains m') i = Some s -> nth_error (sharedFaces m') i = Some l ->
     exists xs, Stand kF l xs /\ NoDup xs /\ Ordered fkey xs /\ forall f, In f xs <-> SharedFace m (From_ g2d) me s f }.

(* the mesh m that rank me has made; its first nlocal generators are its own, the others come from
   ranks it talked to *)
Record DistInput {V} (D : nat) (m : mesh V) (g2d : list nat) (me : nat) (nd : list nat) (nlocal : nat) : Prop := {
  di_fresh : Fresh D m;
  di_size : length g2d = length (cells m);
  di_own : forall i, From_ g2d me i <-> i < nlocal;
  di_some : 0 < nlocal;
  di_sorted : StronglySorted lt nd;
  di_known : forall i s, From_ g2d s i -> s <> me -> In s nd }.

(* ranks 0 .. n-1 hold points pts r (D numbers each, 64 bits per number, and few enough for the
   size of a buffer to fit in 32 bits) and talk to each other *)
Record Talk (D n : nat) (pts : nat -> list Z) (nb : nat -> list nat) : Prop := {
  tk_points : forall r, r < n -> (exists k, length (pts r) = D * k) /\ Forall (fits TDouble) (pts r) /\ (Z.of_nat (4 + 8 * length (pts r)) < 2 ^ 32)%Z;
  tk_nodup : forall r, r < n -> NoDup (nb r) /\ (Z.of_nat (length (nb r)) < 2 ^ 32)%Z;
  tk_range : forall r s, r < n -> In s (nb r) -> s < n;
  tk_mutual : forall r s, r < n -> s < n -> In s (nb r) <-> In r (nb s) }.

(* face f belongs to a cell of rank s *)
Definition RankFace {V} (m : mesh V) (owns : nat -> nat -> Prop) (s f : nat) : Prop := exists i, owns s i /\ FaceOf m i f.

(* The elements (nodes or faces) of n ranks have global names.  Has r s x: in the numbering of rank
   r, element x belongs to a cell of s. *)
Record Agree (n : nat) (Has : nat -> nat -> nat -> Prop) (name : nat -> nat -> nat) (key : nat -> nat -> list Z) (K : nat -> list Z) : Prop := {
  ag_inj : forall r x y, r < n -> Has r r x -> Has r r y -> name r x = name r y -> x = y;
  (* keys are those of the names, and tell them apart *)
  ag_key : forall r x, r < n -> Has r r x -> key r x = K (name r x);
  ag_tell : forall r s x y, r < n -> s < n -> Has r r x -> Has s s y -> K (name r x) = K (name s y) -> name r x = name s y;
  (* rank r sees an element of its own on a cell of s just when s has it on its own cells *)
  ag_meet : forall r s x, r < n -> s < n -> r <> s -> Has r r x -> (Has r s x <-> exists y, Has s s y /\ name s y = name r x) }.

(* the key of a face between two nodes in the plane: half of one hashed end point plus half of the other *)
Definition edgeKey {V} (hash : list V -> list Z) (m : mesh V) (f : nat) : list Z :=
  match nth_error (faces m) f with
  | Some [a; b] => map (fun '(x, y) => (Z.div2 x + Z.div2 y)%Z) (combine (hash (node_at 2 m a)) (hash (node_at 2 m b)))
  | _ => []
  end.
