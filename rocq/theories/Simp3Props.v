(* C96: simplifying the surface of a solid. *)
From Coq Require Import QArith Qabs Lqa Permutation Sorted.
From Verif Require Import Base BaseFacts Plane PLCSpec MeshEditorModel HashModel HashSpec HashProps Simp3Model Simp3Spec Simp3Proofs Simp3Proofs6.
Local Open Scope nat_scope.

(* With a 64 bit key and all points in the box: whenever the routine returns, points in the same
   cell of the grid have been made one, every facet with area is in exactly one patch of facets
   facing the same way, whatever touches the first facet of a patch and faces the same way has been
   merged, and each patch gave the facet made of the corners of its outline.  Convex facets face
   the way of the first facet of the patch, if its first three points are not in line.
   Partial: the routine stops for a patch with a hole (simplify3_hole_refuted); facets that do not touch
   the first one can stay apart and leave the surface open (simplify3_missed_refuted); facets
   beginning with points in line can be turned around (simplify3_turned_refuted). *)
Theorem simplify3_partial : forall facets points xmin xmax tol points' facets',
  let same i j := SameCell 3 xmin xmax tol (vertex 3 points i) (vertex 3 points j) in
  length points mod 3 = 0 -> Nested 3 xmin xmax xmin xmax ->
  (forall i, i < length points / 3 -> Inside 3 xmin xmax (vertex 3 points i)) ->
  simplify3 uint64_key facets points xmin xmax tol = Ok (points', facets') ->
  exists rep patches, FirstSame (length points / 3) same rep /\ Simplified3 points tol rep facets points' facets' patches /\ 4 <= length facets'.
Proof.
  intros facets points xmin xmax tol points' facets' same E N I H. destruct (unique_points_partial 3 points xmin xmax tol (or_intror eq_refl) E N I) as (ups & imap & U & M).
  exact (simplify3_ok _ _ _ _ _ _ _ _ _ _ U M H).
Qed.
Print Assumptions simplify3_partial.

(* With an int key the routine always shifts by too much. *)
Theorem simplify3_int_refuted : forall facets points xmin xmax tol, 0 < length points -> length points mod 3 = 0 -> Nested 3 xmin xmax xmin xmax ->
  Inside 3 xmin xmax (vertex 3 points 0) -> simplify3 int_key facets points xmin xmax tol = UB.
Proof. intros facets points xmin xmax tol L E N I. unfold simplify3. rewrite (unique_points_3d_refuted points xmin xmax tol L E N I). reflexivity. Qed.
Print Assumptions simplify3_int_refuted.

Lemma nest3 lo hi : (forall j, j < 3 -> (coord lo j < coord hi j)%Q) -> Nested 3 lo hi lo hi.
Proof. intros H. constructor; auto; intros; try apply Qle_refl; apply Qlt_le_weak; auto. Qed.
Lemma in_box3 (points lo hi : list Q) : forallb (fun i => forallb (fun c => Qle_bool (nth c lo 0) (nth c (vertex 3 points i) 0) && Qle_bool (nth c (vertex 3 points i) 0) (nth c hi 0))%Q (seq 0 3)) (seq 0 (length points / 3)) = true ->
  forall i, i < length points / 3 -> Inside 3 lo hi (vertex 3 points i).
Proof.
  intros H i L c C. rewrite forallb_forall in H. specialize (H i ltac:(apply in_seq; lia)). rewrite forallb_forall in H. specialize (H c ltac:(apply in_seq; lia)). apply Bool.andb_true_iff in H. rewrite !Qle_bool_iff in H. exact H.
Qed.

(* ---- a tetrahedron with a point inside one edge, its two faces there cut in two ---- *)
Definition tet_points : list Q := [0; 0; 0; 2; 0; 0; 0; 2; 0; 0; 0; 2; 1; 1; 0]%Q.
Definition tet_facets : list (list nat) := [[0; 4; 1]; [0; 2; 4]; [0; 1; 3]; [0; 3; 2]; [1; 4; 3]; [4; 2; 3]].
Example tet_nested : Nested 3 [0; 0; 0]%Q [2; 2; 2]%Q [0; 0; 0]%Q [2; 2; 2]%Q.
Proof. apply nest3. intros [|[|[|j]]] J; try (vm_compute; reflexivity). lia. Qed.
Example tet_inside : forall i, i < length tet_points / 3 -> Inside 3 [0; 0; 0]%Q [2; 2; 2]%Q (vertex 3 tet_points i).
Proof. apply in_box3. reflexivity. Qed.
Example tet_run : simplify3 uint64_key tet_facets tet_points [0; 0; 0]%Q [2; 2; 2]%Q (1 # 1000) =
  Ok ([0; 0; 0; 2; 0; 0; 0; 2; 0; 0; 0; 2]%Q, [[0; 2; 1]; [1; 3; 0]; [0; 3; 2]; [1; 2; 3]]).
Proof. vm_compute. reflexivity. Qed.

(* ---- surfaces that are closed before and not after ---- *)
Definition zf (fs : list (list nat)) : list (list Z) := map (map Z.of_nat) fs.
Definition zeqb (e d : Z * Z) : bool := (fst e =? fst d)%Z && (snd e =? snd d)%Z.
Lemma zeqb_iff e d : zeqb e d = true <-> e = d.
Proof. destruct e as [a b], d as [a' b']. unfold zeqb. cbn [fst snd]. rewrite Bool.andb_true_iff, !Z.eqb_eq. split; [intros [-> ->]; auto|intros E; inversion E; auto]. Qed.
Lemma exb_iff e l : existsb (zeqb e) l = true <-> In e l.
Proof. rewrite existsb_exists. split; [intros (x & I & E); apply zeqb_iff in E; subst; auto|intros I; exists e; split; auto; apply zeqb_iff; auto]. Qed.
Fixpoint nodupb (l : list (Z * Z)) : bool := match l with [] => true | e :: t => negb (existsb (zeqb e) t) && nodupb t end.
Lemma nodupb_iff l : nodupb l = true <-> NoDup l.
Proof.
  induction l as [|e l IH]; cbn [nodupb]; [split; auto; constructor|]. rewrite Bool.andb_true_iff, Bool.negb_true_iff, IH, <- Bool.not_true_iff_false, exb_iff. split; [intros [A B]; constructor; auto|intros N; inversion N; auto].
Qed.
Definition closedb (fs : list (list nat)) : bool := let es := PLCSpec.facet_edges (zf fs) in nodupb es && forallb (fun e => existsb (zeqb (flip e)) es) es.
Lemma closedb_iff fs : closedb fs = true <-> closed_surface (zf fs).
Proof.
  unfold closedb, closed_surface. cbv zeta. rewrite Bool.andb_true_iff, nodupb_iff, forallb_forall. split; intros [A B]; split; auto; intros e I; specialize (B e I); apply exb_iff; auto.
Qed.

(* the facet with its first point, its second and its third one, which are not in line, is plane
   with normal n *)
Lemma normal_123 points tol a b c l : ~ Close tol (pos3 points a) (pos3 points b) -> ~ InLine3 tol (pos3 points a) (pos3 points b) (pos3 points c) ->
  HasNormal points tol (a :: b :: c :: l) (vcross (sub3 (pos3 points b) (pos3 points a)) (sub3 (pos3 points c) (pos3 points a))).
Proof. intros A B. exists a, [], b, [], c, l. cbn [app In]. repeat (split; auto; try tauto). Qed.

(* a box, its bottom cut into three *)
Definition box_points : list Q := [0; 0; 0; 0; 1; 0; 1; 0; 0; 1; 1; 0; 2; 0; 0; 2; 1; 0; 3; 0; 0; 3; 1; 0; 0; 0; 1; 0; 1; 1; 3; 0; 1; 3; 1; 1]%Q.
Definition box_facets : list (list nat) := [[4; 5; 7; 6]; [2; 3; 5; 4]; [0; 1; 3; 2]; [6; 10; 8; 0; 2; 4]; [1; 9; 11; 7; 5; 3]; [0; 8; 9; 1]; [6; 7; 11; 10]; [8; 10; 11; 9]].
(* The three parts of the bottom face the same way, and two of them stay apart: the first two are
   merged, the third one touches only the second.  The points between these two parts are dropped
   from the sides, so that the surface is not closed any more. *)
Theorem simplify3_missed_refuted : exists facets points xmin xmax tol points' facets' f g n,
  Nested 3 xmin xmax xmin xmax /\ (forall i, i < length points / 3 -> Inside 3 xmin xmax (vertex 3 points i)) /\ closed_surface (zf facets) /\
  simplify3 uint64_key facets points xmin xmax tol = Ok (points', facets') /\ In f facets' /\ In g facets' /\ f <> g /\
  HasNormal points' tol f n /\ (exists m, HasNormal points' tol g m /\ Facing tol n m) /\ (exists a b, In (a, b) (ring f) /\ In (b, a) (ring g)) /\
  ~ closed_surface (zf facets').
Proof.
  exists box_facets, box_points, [0; 0; 0]%Q, [3; 1; 1]%Q, (1 # 1000)%Q. do 2 eexists. exists [3; 5; 4; 2], [1; 3; 2; 0]. eexists.
  split; [apply nest3; intros [|[|[|j]]] J; try (vm_compute; reflexivity); lia|]. split; [apply in_box3; reflexivity|]. split; [apply closedb_iff; reflexivity|].
  split; [vm_compute; reflexivity|]. split; [cbn; tauto|]. split; [cbn; tauto|]. split; [discriminate|].
  split; [apply normal_123; [rewrite <- near_iff|rewrite <- inline_iff]; vm_compute; discriminate|].
  split; [eexists; split; [apply normal_123; [rewrite <- near_iff|rewrite <- inline_iff]; vm_compute; discriminate|apply facing_iff; vm_compute; reflexivity]|].
  split; [exists 2, 3; split; cbn; tauto|]. rewrite <- closedb_iff. vm_compute. discriminate.
Qed.
Print Assumptions simplify3_missed_refuted.

(* the same with a bottom in one piece, and one side whose first three points are in line *)
Definition side_points : list Q := [0; 0; 0; 0; 1; 0; 1; 1; 0; 2; 1; 0; 3; 1; 0; 3; 0; 0; 0; 0; 1; 0; 1; 1; 3; 0; 1; 3; 1; 1]%Q.
Definition side_facets : list (list nat) := [[0; 1; 2; 3; 4; 5]; [0; 5; 8; 6]; [4; 3; 2; 1; 7; 9]; [0; 6; 7; 1]; [5; 4; 9; 8]; [6; 8; 9; 7]].
Definition turnsb (P : nat -> p3) (n : p3) (cs : list nat) : bool := forallb (fun i => Qlt_bool 0 (vdot n (corner_at P cs i))) (seq 0 (length cs)).
Lemma turnsb_ok P n cs : turnsb P n cs = true -> Turns P n cs.
Proof. unfold turnsb, Turns. rewrite forallb_forall. intros H i L. apply qlt_iff, H, in_seq. lia. Qed.
(* The side keeps its four corners, but comes out facing into the box. *)
Theorem simplify3_turned_refuted : exists facets points xmin xmax tol points' facets' f f' n,
  Nested 3 xmin xmax xmin xmax /\ (forall i, i < length points / 3 -> Inside 3 xmin xmax (vertex 3 points i)) /\ closed_surface (zf facets) /\
  simplify3 uint64_key facets points xmin xmax tol = Ok (points', facets') /\ In f facets /\ HasNormal points tol f n /\
  In f' facets' /\ (forall v', In v' f' -> exists v, In v f /\ pos3 points v = pos3 points' v') /\ Turns (pos3 points') n (rev f') /\
  ~ closed_surface (zf facets').
Proof.
  exists side_facets, side_points, [0; 0; 0]%Q, [3; 1; 1]%Q, (1 # 1000)%Q. do 2 eexists. exists [4; 3; 2; 1; 7; 9], [2; 7; 5; 1]. eexists.
  split; [apply nest3; intros [|[|[|j]]] J; try (vm_compute; reflexivity); lia|]. split; [apply in_box3; reflexivity|]. split; [apply closedb_iff; reflexivity|].
  split; [vm_compute; reflexivity|]. split; [cbn; tauto|]. split.
  { exists 4, [], 3, [2; 1], 7, [9]. cbv zeta. split; [reflexivity|]. split; [intros x []|]. split; [rewrite <- near_iff; vm_compute; discriminate|]. split; [|split; [rewrite <- inline_iff; vm_compute; discriminate|reflexivity]].
    intros x [<-|[<-|[]]]; apply inline_iff; vm_compute; reflexivity. }
  split; [cbn; tauto|]. split; [|split; [apply turnsb_ok; vm_compute; reflexivity|rewrite <- closedb_iff; vm_compute; discriminate]].
  intros v' [<-|[<-|[<-|[<-|[]]]]]; [exists 4|exists 9|exists 7|exists 1]; (split; [cbn; tauto|reflexivity]).
Qed.
Print Assumptions simplify3_turned_refuted.

(* a square frame: its bottom and its top are cut into four *)
Definition frame_points : list Q := [0; 0; 0; 3; 0; 0; 3; 3; 0; 0; 3; 0; 1; 1; 0; 2; 1; 0; 2; 2; 0; 1; 2; 0; 0; 0; 1; 3; 0; 1; 3; 3; 1; 0; 3; 1; 1; 1; 1; 2; 1; 1; 2; 2; 1; 1; 2; 1]%Q.
Definition frame_facets : list (list nat) := [[0; 4; 5; 1]; [1; 5; 6; 2]; [2; 6; 7; 3]; [3; 7; 4; 0]; [8; 9; 13; 12]; [9; 10; 14; 13]; [10; 11; 15; 14]; [11; 8; 12; 15];
  [0; 1; 9; 8]; [1; 2; 10; 9]; [2; 3; 11; 10]; [3; 0; 8; 11]; [4; 12; 13; 5]; [5; 13; 14; 6]; [6; 14; 15; 7]; [7; 15; 12; 4]].
(* When the facets that are merged go around a hole, the program stops. *)
Theorem simplify3_hole_refuted : exists facets points xmin xmax tol,
  length points mod 3 = 0 /\ Nested 3 xmin xmax xmin xmax /\ (forall i, i < length points / 3 -> Inside 3 xmin xmax (vertex 3 points i)) /\ closed_surface (zf facets) /\
  simplify3 uint64_key facets points xmin xmax tol = Abort.
Proof.
  exists frame_facets, frame_points, [0; 0; 0]%Q, [3; 3; 1]%Q, (1 # 1000)%Q. split; [reflexivity|].
  split; [apply nest3; intros [|[|[|j]]] J; try (vm_compute; reflexivity); lia|]. split; [apply in_box3; reflexivity|]. split; [apply closedb_iff; reflexivity|]. vm_compute. reflexivity.
Qed.
Print Assumptions simplify3_hole_refuted.
