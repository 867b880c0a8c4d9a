(* What a mesh read out of a list of Voronoi cells should be.  Independent of how the read-out
   finds nodes and faces again. *)
From Verif Require Import Base PLCSpec MeshModel MeshSpec Plane VoroModel.
From Coq Require Import QArith Qround.
Local Open Scope nat_scope.

(* the nearest point of the grid of spacing dx *)
Definition snap (dx : Q) (p : p3) : ipt :=
  (Qfloor (X3 p / dx + (1 # 2)), Qfloor (Y3 p / dx + (1 # 2)), Qfloor (Z3 p / dx + (1 # 2)))%Q.
(* where the program puts the vertex q of a cell *)
Definition placed (c : vcell) (q : p3) : p3 :=
  (X3 (vc_pos c) + X3 (vc_centroid c) + X3 q * (1 # 2), Y3 (vc_pos c) + Y3 (vc_centroid c) + Y3 q * (1 # 2), Z3 (vc_pos c) + Z3 (vc_centroid c) + Z3 q * (1 # 2))%Q.
(* where it is: the library gives the vertices relative to the position and times two *)
Definition truly (c : vcell) (q : p3) : p3 :=
  (X3 (vc_pos c) + X3 q * (1 # 2), Y3 (vc_pos c) + Y3 q * (1 # 2), Z3 (vc_pos c) + Z3 q * (1 # 2))%Q.

(* the grid points of the vertices of a cell, and those of one of its faces in order *)
Definition spots (dx : Q) (c : vcell) : list ipt := map (fun q => snap dx (placed c q)) (vc_pts c).
Definition corners (dx : Q) (c : vcell) (f : list nat) : list ipt := map (fun k => nth k (spots dx c) (0, 0, 0)%Z) f.
(* each point once, at its first place *)
Definition ipt_dec (a b : ipt) : {a = b} + {a <> b}.
Proof. repeat decide equality. Defined.
Fixpoint once (seen l : list ipt) : list ipt :=
  match l with
  | [] => []
  | p :: t => if in_dec ipt_dec p seen then once seen t else p :: once (p :: seen) t
  end.
Definition sameset {A} (a b : list A) : Prop := forall x, In x a <-> In x b.

(* the sides (cell, face) at which the cells of the list have the same points *)
Definition side (cs : list vcell) (a b : nat) (c : vcell) (f : list nat) : Prop :=
  nth_error cs a = Some c /\ nth_error (vc_faces c) b = Some f.

(* what is asked of the cells given by the library *)
Definition in_range (q : Q) : Prop := (0 <= q + (1 # 2) /\ q + (1 # 2) < inject_Z (2 ^ 31 - 1))%Q.
Definition apart (p q : ipt) : Prop :=
  p = q \/ let '(x, y, z) := p in let '(u, v, w) := q in (1 < Z.abs (x - u) \/ 1 < Z.abs (y - v) \/ 1 < Z.abs (z - w))%Z.
Record Readable (dx : Q) (n : nat) (cs : list vcell) : Prop := {
  rd_dx : (0 < dx)%Q;
  (* every cell belongs to one generator *)
  rd_pids : NoDup (map vc_pid cs);
  rd_pid : forall c, In c cs -> vc_pid c < n;
  (* every cell is a body *)
  rd_pts : forall c, In c cs -> 4 <= length (vc_pts c) /\ 4 <= length (vc_faces c);
  rd_face : forall c f, In c cs -> In f (vc_faces c) ->
      (forall k, In k f -> k < length (vc_pts c)) /\ 3 <= length (once [] (corners dx c f));
  (* the grid fits in the integers, and different vertices are not next to one another in it *)
  rd_range : forall c q, In c cs -> In q (vc_pts c) ->
      in_range (X3 (placed c q) / dx) /\ in_range (Y3 (placed c q) / dx) /\ in_range (Z3 (placed c q) / dx);
  rd_apart : forall c d p q, In c cs -> In d cs -> In p (spots dx c) -> In q (spots dx d) -> apart p q;
  (* a face is shared by at most two cells, and two faces of a cell differ *)
  rd_own : forall a b b' c f g, side cs a b c f -> side cs a b' c g -> sameset (corners dx c f) (corners dx c g) -> b = b';
  rd_two : forall a1 b1 c1 f1 a2 b2 c2 f2 a3 b3 c3 f3,
      side cs a1 b1 c1 f1 -> side cs a2 b2 c2 f2 -> side cs a3 b3 c3 f3 ->
      sameset (corners dx c1 f1) (corners dx c2 f2) -> sameset (corners dx c1 f1) (corners dx c3 f3) ->
      a1 = a2 \/ a1 = a3 \/ a2 = a3 }.

(* the entry z of a cell stands for the face f of the library: the nodes of the face are its
   points, in order when this cell came first *)
Definition StandsFor (dx : Q) (ns : list ipt) (fs : list (list nat)) (c : vcell) (f : list nat) (z : Z) : Prop :=
  exists nf ps, nth_error fs (pid z) = Some nf /\ Forall2 (fun i p => nth_error ns i = Some p) nf ps /\
    sameset ps (corners dx c f) /\ NoDup nf /\ 3 <= length nf /\
    ((0 <= z)%Z -> ps = once [] (corners dx c f)).

(* the mesh read out of the cells cs, for n generators, in the box with low corner lo and size s *)
Record ReadOut (dx s : Q) (lo : p3) (n : nat) (cs : list vcell) (m : mesh Q) : Prop := {
  ro_wf : WellFormed 3 m;
  ro_body : exists ns, NoDup ns /\
      (forall p, In p ns <-> exists c, In c cs /\ In p (spots dx c)) /\
      Forall2 Qeq (nodes m) (flat_map (fun p => let '(x, y, z) := p in
        [X3 lo + inject_Z x * dx * s; Y3 lo + inject_Z y * dx * s; Z3 lo + inject_Z z * dx * s]%Q) ns) /\
      length (cells m) = n /\
      (forall i l, nth_error (cells m) i = Some l ->
         (exists c, In c cs /\ vc_pid c = i /\ Forall2 (StandsFor dx ns (faces m) c) (vc_faces c) l)
         \/ (l = [] /\ ~ In i (map vc_pid cs)));
  (* no two faces have the same nodes *)
  ro_distinct : forall i j f g, nth_error (faces m) i = Some f -> nth_error (faces m) j = Some g -> sameset f g -> i = j;
  ro_rest : boundaryNodes m = [] /\ boundaryFaces m = [] }.
