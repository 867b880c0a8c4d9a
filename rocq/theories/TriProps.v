(* Theorems about the tessellator that reads Voronoi cells from a Delaunay triangulation: the mesh
   is dual to the triangulation (C75), its cells are the Voronoi cells (C76), the standard frame
   and the guards leave nothing outside the grid (C77), orientation (C78), coincident nodes and
   generators without triangles (C79).  The vocabulary is in TriSpec.v. *)
From Coq Require Import QArith Lqa.
From Verif Require Import Base BaseFacts QuantMeshModel PLCSpec BoxModel BoxProofs BoxProps Plane WithinSpec TriModel TriSpec TriProofs6 TriProofs10 TriProofs11 TriCheck.
Local Open Scope nat_scope.

(* The frame covers the whole integer range, the points lie on its grid, and the triangulation is
   Delaunay: then the call returns as long as the circumcenters of the triangles that touch a
   generator lie in the frame, and the mesh is the dual of the triangulation. *)
Definition Prepared (f : frame) (gens guards : list pt) (tris : list tri) : Prop :=
  cmin f = coordMin /\ cmax f = coordMax /\ (0 < flen f)%Q /\ gens <> [] /\
  (forall p, In p (gens ++ guards) -> (coordMin <= fst p <= coordMax)%Z /\ (coordMin <= snd p <= coordMax)%Z) /\
  Delaunay (map (deq f) (gens ++ guards)) (length gens) tris /\
  (forall t x, In t tris -> real (length gens) t = true -> Center (map (deq f) (gens ++ guards)) t x -> in_frame f x).

Lemma prepared_inv f gens guards tris : Prepared f gens guards tris -> full f /\ (forall p, In p (gens ++ guards) -> on_grid p) /\
  Delaunay (map (deq f) (gens ++ guards)) (length gens) tris /\
  (forall a b c x, In (a, b, c) tris -> a < length gens \/ b < length gens \/ c < length gens -> Center (map (deq f) (gens ++ guards)) (a, b, c) x -> in_frame f x) /\ gens <> [].
Proof.
  intros (A & B & C & Ne & G & D & R). split; [repeat split; auto|]. split; [auto|]. split; [auto|]. split; [|auto].
  intros a b c x I H. apply R; auto. unfold real. rewrite !orb_true_iff, !Nat.ltb_lt. tauto.
Qed.

(* ------------------------------------------------------------ C75 *)
Theorem dual_mesh : forall f gens guards tris, Prepared f gens guards tris ->
  exists nodes edges cells, tri_tessellate f gens guards tris = Ok (nodes, edges, cells) /\
    Dual (length gens) tris (length nodes) edges cells.
Proof.
  intros f gens guards tris P. destruct (prepared_inv _ _ _ _ P) as (F & G & D & R & Ne).
  destruct (tess_cells f gens guards tris F G D R Ne) as (n & e & c & E & Du & _). eauto 10.
Qed.
Print Assumptions dual_mesh.

(* ------------------------------------------------------------ C76 *)
Theorem voronoi_cells : forall f gens guards tris nodes edges cells, Prepared f gens guards tris ->
  tri_tessellate f gens guards tris = Ok (nodes, edges, cells) ->
  length cells = length gens /\
  forall p c, nth_error cells p = Some c -> VoronoiCell f (map (deq f) (gens ++ guards)) (length gens) tris nodes edges p c.
Proof.
  intros f gens guards tris nodes edges cells P E. destruct (prepared_inv _ _ _ _ P) as (F & G & D & R & Ne).
  destruct (tess_cells f gens guards tris F G D R Ne) as (n & e & c & E' & Du & V). rewrite E' in E. assert (n = nodes /\ e = edges /\ c = cells) as (-> & -> & ->) by (repeat split; congruence).
  split; [apply (du_cells _ _ _ _ _ Du)|exact V].
Qed.
Print Assumptions voronoi_cells.

(* ------------------------------------------------------------ C77 *)
(* The caller gives generators inside the bounding box of the boundary points.  The constructor of
   the quantized tessellation sets up the frame and the guards; whatever Delaunay triangulation of
   the quantized points comes back, nothing is undefined, the mesh is the dual, its cells are the
   Voronoi cells, and inside the box the guards take nothing away: there the cell of a generator is
   exactly the set of places closest to it among the generators. *)
Theorem standard_frame : forall big bnd points xl yl xh yh f gq uq tris,
  local_box 2 big bnd = Ok ([xl; yl], [xh; yh]) -> (xl < xh \/ yl < yh)%Q -> boundary_frame big bnd = Ok f ->
  construct f points = Ok (gq, uq) -> points <> [] ->
  (forall i x y, vertex 2 points i = [x; y] -> (xl <= x <= xh)%Q /\ (yl <= y <= yh)%Q) ->
  let gens := map fst gq in let guards := map fst uq in let pts := map (deq f) (gens ++ guards) in
  Delaunay pts (length gens) tris ->
  exists nodes edges cells, tri_tessellate f gens guards tris = Ok (nodes, edges, cells) /\
    Dual (length gens) tris (length nodes) edges cells /\
    (forall p c, nth_error cells p = Some c -> VoronoiCell f pts (length gens) tris nodes edges p c) /\
    (forall p x, p < length gens -> (xl <= fst x <= xh)%Q -> (yl <= snd x <= yh)%Q ->
       (Nearest pts p x <-> Nearest (map (deq f) gens) p x)).
Proof.
  intros big bnd points xl yl xh yh f gq uq tris Box Size Ff Co Ne Ins gens guards pts D.
  assert (Ins' : forall i x y, i < length gq -> vertex 2 points i = [x; y] -> (xl <= x <= xh)%Q /\ (yl <= y <= yh)%Q) by eauto.
  destruct (construct_correct f points gq uq Co) as (Len & _).
  assert (Ng : gens <> []) by (unfold gens; destruct gq as [|a gq]; [|discriminate]; cbn in Len; destruct points as [|? [|? ?]]; cbn in Len; try congruence; lia).
  destruct (tess_cells f gens guards tris) as (n & e & c & E & Du & V); auto.
  - apply (f_full big bnd points xl yl xh yh f gq uq); auto.
  - intros p I. apply (all_on_grid big bnd points xl yl xh yh f gq uq); auto.
  - intros a b c x I H. apply (in_range big bnd points xl yl xh yh f gq uq Box Size Ff Co Ins' tris D a b c x I). fold gens. exact H.
  - exists n, e, c. split; [exact E|]. split; [exact Du|]. split; [exact V|]. exact (box_only big bnd points xl yl xh yh f gq uq Box Size Ff Co Ins').
Qed.
Print Assumptions standard_frame.

(* ------------------------------------------------------------ C79 *)
(* The call only returns if every generator has three triangles.  In particular a generator at the
   place of another one, which belongs to no triangle, stops it. *)
Theorem generators_need_triangles : forall f gens guards tris nodes edges cells,
  tri_tessellate f gens guards tris = Ok (nodes, edges, cells) -> forall p, p < length gens ->
  exists i j k, i <> j /\ i <> k /\ j <> k /\ touches tris p i /\ touches tris p j /\ touches tris p k.
Proof. exact lonely. Qed.
Print Assumptions generators_need_triangles.

(* ---------------------------------------------------------------- cases *)
(* Five generators in the square from (0,0) to (10,10), with the Delaunay triangulation of the
   quantized generators and the twelve guards. *)
Definition square : list Q := map inject_Z [0; 0; 10; 0; 10; 10; 0; 10]%Z.
Definition sq_frame : frame := mkFrame coordMin coordMax (0 - 2 * 10)%Q (0 - 2 * 10)%Q (5 * 10)%Q.
Definition made (points : list Q) : list pt * list pt :=
  match construct sq_frame points with Ok (g, u) => (map fst g, map fst u) | _ => ([], []) end.
Definition five : list Q := map inject_Z [2; 3; 7; 2; 8; 8; 3; 7; 5; 5]%Z.
Definition five_tris : list tri :=
  [(0, 11, 5); (15, 11, 3); (11, 0, 3); (0, 5, 9); (10, 6, 15); (10, 15, 3); (1, 0, 9); (4, 3, 0); (10, 3, 2); (4, 0, 1);
   (2, 3, 4); (2, 4, 1); (1, 9, 13); (14, 10, 2); (12, 2, 1); (16, 14, 2); (12, 1, 13); (16, 2, 12); (12, 13, 8)].
Definition five_stars : list (list nat * list nat) :=
  [([11; 5; 9; 1; 4; 3], [0; 3; 6; 9; 7; 2]); ([0; 9; 13; 12; 2; 4], [6; 12; 16; 14; 11; 9]);
   ([10; 3; 4; 1; 12; 16; 14], [8; 10; 11; 14; 17; 15; 13]); ([15; 11; 0; 4; 2; 10], [1; 2; 7; 10; 8; 5]); ([3; 0; 1; 2], [7; 9; 11; 10])].
Example square_box : local_box 2 1000 square = Ok ([0; 0], [10; 10])%Q.
Proof. vm_compute. reflexivity. Qed.
Example square_frame : boundary_frame 1000 square = Ok sq_frame.
Proof. vm_compute. reflexivity. Qed.
Lemma sq_proper : proper sq_frame.
Proof. split; reflexivity. Qed.
Example five_made : exists gq uq, construct sq_frame five = Ok (gq, uq) /\ map fst gq = fst (made five) /\ map fst uq = snd (made five).
Proof. do 2 eexists. split; [reflexivity|split; reflexivity]. Qed.
Example five_delaunay : Delaunay (map (deq sq_frame) (fst (made five) ++ snd (made five))) 5 five_tris.
Proof. apply (delaunayb_ok sq_frame _ _ five_stars sq_proper). vm_compute. reflexivity. Qed.

(* every hypothesis of standard_frame holds for it *)
Lemma in_square points : forallb (fun i => match vertex 2 points i with [x; y] => Qle_bool 0 x && Qle_bool x 10 && Qle_bool 0 y && Qle_bool y 10 | _ => true end) (seq 0 (length points)) = true ->
  forall i x y, vertex 2 points i = [x; y] -> (0 <= x <= 10)%Q /\ (0 <= y <= 10)%Q.
Proof.
  intros H i x y V. rewrite forallb_forall in H. assert (Li : i < length points).
  { assert (length (vertex 2 points i) = 2) by (rewrite V; auto). unfold vertex in H0. rewrite firstn_length, skipn_length in H0. lia. }
  specialize (H i ltac:(apply in_seq; lia)). rewrite V in H. rewrite !andb_true_iff, !Qle_bool_iff in H. tauto.
Qed.
Lemma square_case points tris n : points <> [] ->
  forallb (fun i => match vertex 2 points i with [x; y] => Qle_bool 0 x && Qle_bool x 10 && Qle_bool 0 y && Qle_bool y 10 | _ => true end) (seq 0 (length points)) = true ->
  length points mod 2 = 0 -> length (fst (made points)) = n ->
  Delaunay (map (deq sq_frame) (fst (made points) ++ snd (made points))) n tris ->
  Prepared sq_frame (fst (made points)) (snd (made points)) tris.
Proof.
  intros Ne Ins Md Ln D. pose proof (in_square _ Ins) as I'.
  assert (C : exists gq uq, construct sq_frame points = Ok (gq, uq)) by (unfold construct; rewrite Md; cbn; eauto).
  destruct C as (gq & uq & C). unfold made in *. rewrite C in *. cbn [fst snd] in *.
  assert (Hs : (0 < 10 \/ 0 < 10)%Q) by (left; reflexivity).
  assert (I2 : forall i x y, i < length gq -> vertex 2 points i = [x; y] -> (0 <= x <= 10)%Q /\ (0 <= y <= 10)%Q) by eauto.
  rewrite <- Ln in D. split; [auto|]. split; [auto|]. split; [reflexivity|]. split.
  - destruct (construct_correct _ _ _ _ C) as (Len & _). destruct gq; [|discriminate]. destruct points; [congruence|discriminate].
  - split; [exact (all_on_grid 1000 square points 0 0 10 10 sq_frame gq uq square_box Hs square_frame C I2)|]. split; [exact D|].
    intros [[a b] c] x I R. apply (in_range 1000 square points 0 0 10 10 sq_frame gq uq square_box Hs square_frame C I2 tris D a b c x I).
    cbn [real] in R. rewrite !orb_true_iff, !Nat.ltb_lt in R. tauto.
Qed.
Example five_case : Prepared sq_frame (fst (made five)) (snd (made five)) five_tris.
Proof. apply (square_case _ _ 5); [discriminate|vm_compute; reflexivity|reflexivity|reflexivity|exact five_delaunay]. Qed.

Definition five_edges : list (nat * nat) :=
  [(2, 6); (6, 8); (5, 8); (3, 5); (0, 3); (0, 2); (8, 10); (10, 13); (13, 15); (11, 15); (5, 11); (9, 10); (13, 16); (14, 16); (12, 14);
   (7, 12); (7, 9); (6, 9); (4, 7); (1, 4); (1, 2)].
Definition five_cells : list (list Z) :=
  [[0; 1; -3; -4; -5; 5]; [6; 7; 8; -10; -11; 2]; [11; 7; 12; -14; -15; -16; 16]; [0; 17; -17; -19; -20; 20]; [6; -12; -18; 1]]%Z.
Definition five_nodes : list pt :=
  [(-646197353, -536870913); (-622770259, 536870910); (-586501646, 119781864); (-536870913, -641444030); (-536870913, 622770256);
   (-117344644, -586723212); (-90194315, -4294969); (-73546565, 582481183); (-21474838, -107374184); (21474835, 107374181);
   (133143985, -4294969); (536870910, -646197353); (536870910, 665719929); (581729458, -79059214); (601295420, 601295420);
   (641444027, -536870913); (665719929, 536870910)]%Z.
Example five_mesh : tri_tessellate sq_frame (fst (made five)) (snd (made five)) five_tris = Ok (five_nodes, five_edges, five_cells).
Proof. vm_compute. reflexivity. Qed.
(* the middle generator is closest to the middle of the square *)
Example five_middle :
  VoronoiCell sq_frame (map (deq sq_frame) (fst (made five) ++ snd (made five))) 5 five_tris five_nodes five_edges 4 [6; -12; -18; 1]%Z.
Proof. exact (proj2 (voronoi_cells _ _ _ _ _ _ _ five_case five_mesh) 4 _ eq_refl). Qed.

(* ------------------------------------------------------------ C78 *)
(* src/Tessellation.hh lines 64-67: a negative face index marks a face whose normal points into the
   cell.  A face between two cells would then be positive in one of them and negative in the other.
   The cells of this tessellator start at their smallest node and turn either way, so both cells
   can name the face with the same sign. *)
Theorem shared_face_sign_refuted : exists f gens guards tris nodes edges cells i j c d z,
  Prepared f gens guards tris /\ tri_tessellate f gens guards tris = Ok (nodes, edges, cells) /\
  i <> j /\ nth_error cells i = Some c /\ nth_error cells j = Some d /\ In z c /\ In z d.
Proof.
  exists sq_frame, (fst (made five)), (snd (made five)), five_tris, five_nodes, five_edges, five_cells, 0, 3.
  do 2 eexists. exists 0%Z. split; [exact five_case|]. split; [exact five_mesh|]. split; [discriminate|]. split; [reflexivity|]. split; [reflexivity|]. split; left; reflexivity.
Qed.
Print Assumptions shared_face_sign_refuted.
(* What holds: each cell is walked in one direction, every face of it signed accordingly. *)
Theorem one_direction_partial : forall f gens guards tris nodes edges cells p c, Prepared f gens guards tris ->
  tri_tessellate f gens guards tris = Ok (nodes, edges, cells) -> nth_error cells p = Some c ->
  exists r xs, map (way edges) c = map Some (ring r) /\
    Forall2 (VertexAt f (map (deq f) (gens ++ guards)) (length gens) tris nodes) r xs /\ OneSided xs.
Proof.
  intros f gens guards tris nodes edges cells p c P E H. destruct (proj2 (voronoi_cells _ _ _ _ _ _ _ P E) p c H) as (r & xs & W & V & O & _). eauto.
Qed.
Print Assumptions one_direction_partial.

(* ------------------------------------------------------------ C79 *)
(* Four generators at the corners of a square: two triangles, one circumcenter, two nodes at the
   same place, and a face of length zero between them in both cells. *)
Definition four : list Q := map inject_Z [2; 2; 8; 2; 8; 8; 2; 8]%Z.
Definition four_tris : list tri :=
  [(0, 10, 4); (14, 10, 3); (3, 10, 0); (0, 4, 8); (9, 5, 14); (9, 14, 3); (1, 0, 8); (2, 3, 0); (2, 0, 1); (9, 3, 2); (1, 8, 12);
   (13, 9, 2); (11, 2, 1); (15, 13, 2); (11, 1, 12); (15, 2, 11); (11, 12, 7)].
Definition four_stars : list (list nat * list nat) :=
  [([10; 4; 8; 1; 2; 3], [0; 3; 6; 8; 7; 2]); ([0; 8; 12; 11; 2], [6; 10; 14; 12; 8]); ([3; 0; 1; 11; 15; 13; 9], [7; 8; 12; 15; 13; 11; 9]);
   ([14; 10; 0; 2; 9], [1; 2; 7; 9; 5])].
Example four_case : Prepared sq_frame (fst (made four)) (snd (made four)) four_tris.
Proof.
  apply (square_case _ _ 4); [discriminate|vm_compute; reflexivity|reflexivity|reflexivity|]. apply (delaunayb_ok sq_frame _ _ four_stars sq_proper). vm_compute. reflexivity.
Qed.
Theorem distinct_nodes_refuted : exists f gens guards tris nodes edges cells i j v,
  Prepared f gens guards tris /\ NoDup gens /\ tri_tessellate f gens guards tris = Ok (nodes, edges, cells) /\
  In (i, j) edges /\ i <> j /\ nth_error nodes i = Some v /\ nth_error nodes j = Some v.
Proof.
  assert (E : exists nodes edges cells, tri_tessellate sq_frame (fst (made four)) (snd (made four)) four_tris = Ok (nodes, edges, cells) /\
    In (6, 7) edges /\ nth_error nodes 6 = Some (-1, -1)%Z /\ nth_error nodes 7 = Some (-1, -1)%Z).
  { do 3 eexists. split; [vm_compute; reflexivity|]. split; [right; left; reflexivity|]. split; reflexivity. }
  destruct E as (nodes & edges & cells & E & I & N6 & N7).
  exists sq_frame, (fst (made four)), (snd (made four)), four_tris, nodes, edges, cells, 6, 7, (-1, -1)%Z.
  split; [exact four_case|]. split; [|auto 10]. vm_compute. repeat constructor; cbn; intuition discriminate.
Qed.
Print Assumptions distinct_nodes_refuted.
(* the first generator twice, and the same triangulation, which leaves the copy out *)
Definition four_and_copy : list Q := four ++ map inject_Z [2; 2]%Z.
Definition skip4 (i : nat) : nat := if i <? 4 then i else i + 1.
Example copy_stops : nth_error (fst (made four_and_copy)) 4 = nth_error (fst (made four_and_copy)) 0 /\
  forall r, tri_tessellate sq_frame (fst (made four_and_copy)) (snd (made four_and_copy)) (map (fun '(a, b, c) => (skip4 a, skip4 b, skip4 c)) four_tris) <> Ok r.
Proof.
  split; [vm_compute; reflexivity|]. intros [[ns es] cs] E. destruct (generators_need_triangles _ _ _ _ _ _ _ E 4) as (i & _ & _ & _ & _ & _ & (t & Ht & C) & _).
  - vm_compute. repeat constructor.
  - assert (X : forallb (fun t => negb (cornerb t 4)) (map (fun '(a, b, c) => (skip4 a, skip4 b, skip4 c)) four_tris) = true) by reflexivity.
    rewrite forallb_forall in X. specialize (X t (nth_error_In _ _ Ht)). apply cornerb_iff in C. rewrite C in X. discriminate.
Qed.
