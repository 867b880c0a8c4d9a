(* Theorems about simplifying the boundary of a planar region (C40). *)
From Verif Require Import Base BaseFacts Plane PLCSpec WithinModel HashModel HashSpec HashProps HullSpec SimplifyModel SimplifySpec SimplifyProofs6.
From Coq Require Import QArith Lqa Permutation.
Local Open Scope nat_scope.

(* With a 64 bit key, on a boundary whose corners are clearly in line or clearly not, the result
   runs once around the same boundary through the corners at which it turns: it keeps the cyclic
   order, drops only points on the segments between the corners kept, and holds no other points.
   Partial: the direction of the boundary is not kept (simplify_turned_refuted), holes are not
   looked at, and the boundary may not touch itself. *)
Theorem simplify_2d_partial : forall facets points xmin xmax tol vs,
  let same i j := SameCell 2 xmin xmax tol (vertex 2 points i) (vertex 2 points j) in
  length points mod 2 = 0 -> Nested 2 xmin xmax xmin xmax ->
  (forall i, i < length points / 2 -> Inside 2 xmin xmax (vertex 2 points i)) ->
  Boundary (length points / 2) same facets vs -> (0 < tol)%Q -> Clear tol (pos2 points) vs -> NoSpike (pos2 points) vs ->
  exists points' facets', simplify2 uint64_key facets points xmin xmax tol = Ok (points', facets') /\
    Simplified (length points / 2) same facets points points' facets'.
Proof.
  intros facets points xmin xmax tol vs same E N I B T C NS. destruct (unique_points_partial 2 points xmin xmax tol (or_introl eq_refl) E N I) as (ups & imap & U & M).
  exact (simplify_ok _ _ _ _ _ _ _ _ _ _ U M B T C NS).
Qed.
Print Assumptions simplify_2d_partial.

(* With an int key the same holds when points of one column of cells, at rows an even number
   apart, are taken to be the same point. *)
Theorem simplify_2d_int_partial : forall facets points xmin xmax tol vs,
  let same i j := SameColumn xmin xmax tol (vertex 2 points i) (vertex 2 points j) in
  length points mod 2 = 0 -> Nested 2 xmin xmax xmin xmax ->
  (forall i, i < length points / 2 -> Inside 2 xmin xmax (vertex 2 points i)) ->
  Boundary (length points / 2) same facets vs -> (0 < tol)%Q -> Clear tol (pos2 points) vs -> NoSpike (pos2 points) vs ->
  exists points' facets', simplify2 int_key facets points xmin xmax tol = Ok (points', facets') /\
    Simplified (length points / 2) same facets points points' facets'.
Proof.
  intros facets points xmin xmax tol vs same E N I B T C NS. destruct (unique_points_int_partial points xmin xmax tol E N I) as (ups & imap & U & M).
  exact (simplify_ok _ _ _ _ _ _ _ _ _ _ U M B T C NS).
Qed.
Print Assumptions simplify_2d_int_partial.

(* ---- a square with points inside its sides, one corner given twice, facets in any direction ---- *)
Definition sq_points : list Q := [0; 0; 1; 0; 2; 0; 2; 2; 0; 2; 2; 0; 1; 2]%Q.
Definition sq_facets : list (list nat) := [[0; 1]; [2; 1]; [5; 3]; [4; 6]; [6; 3]; [0; 4]].
Definition sq_ring : list nat := [0; 1; 2; 3; 6; 4].
Definition bentb (dx : Q) (a b c : p2) : bool :=
  (Qle_bool dx 1 && Qle_bool dx (dist2 a b) && Qle_bool dx (dist2 a c) &&
   let d := (fst b - fst a) * (fst c - fst a) + (snd b - snd a) * (snd c - snd a) in
   Qle_bool (d * d) ((1 - dx) * (1 - dx) * (dist2 a b * dist2 a c)))%Q.
Lemma bentb_ok dx a b c : bentb dx a b c = true -> Bent dx a b c.
Proof. unfold bentb, Bent. rewrite !Bool.andb_true_iff, !Qle_bool_iff. tauto. Qed.
Definition clearb (tol : Q) (P : nat -> p2) (vs : list nat) : bool :=
  (forallb (fun a => forallb (fun b => (a =? b) || Qle_bool tol (dist2 (P a) (P b))) vs) vs) &&
  (forallb (fun a => forallb (fun b => forallb (fun c => (a =? b) || (a =? c) || (b =? c) || Qeq_bool (orient (P a) (P b) (P c)) 0 || bentb tol (P a) (P b) (P c)) vs) vs) vs) &&
  (existsb (fun a => existsb (fun b => existsb (fun c => negb (Qeq_bool (orient (P a) (P b) (P c)) 0)) vs) vs) vs).
Lemma clearb_ok tol P vs : clearb tol P vs = true -> Clear tol P vs.
Proof.
  unfold clearb. rewrite !Bool.andb_true_iff. intros ((H1 & H2) & H3). rewrite forallb_forall in H1, H2. constructor.
  - intros a b A B N. specialize (H1 a A). rewrite forallb_forall in H1. specialize (H1 b B). apply Bool.orb_true_iff in H1. destruct H1 as [H1|H1]; [apply Nat.eqb_eq in H1; contradiction|]. apply Qle_bool_iff. auto.
  - intros a b c A B C N1 N2 N3. specialize (H2 a A). rewrite forallb_forall in H2. specialize (H2 b B). rewrite forallb_forall in H2. specialize (H2 c C). rewrite !Bool.orb_true_iff, !Nat.eqb_eq in H2.
    destruct H2 as [[[[H2|H2]|H2]|H2]|H2]; try contradiction; [left; apply Qeq_bool_iff; auto|right; apply bentb_ok; auto].
  - apply existsb_exists in H3. destruct H3 as (a & A & H3). apply existsb_exists in H3. destruct H3 as (b & B & H3). apply existsb_exists in H3. destruct H3 as (c & C & H3). exists a, b, c. repeat split; auto.
    intros E. apply Qeq_bool_iff in E. rewrite E in H3. discriminate.
Qed.
Definition spikeb (P : nat -> p2) (vs : list nat) : bool :=
  let es := ring vs ++ map (fun e => (snd e, fst e)) (ring vs) in
  forallb (fun e => forallb (fun e' => negb (snd e =? fst e') || (fst e =? snd e') || negb (Qeq_bool (orient (P (fst e)) (P (snd e)) (P (snd e'))) 0) ||
    negb (Qle_bool ((fst (P (snd e)) - fst (P (fst e))) * (fst (P (snd e')) - fst (P (snd e))) + (snd (P (snd e)) - snd (P (fst e))) * (snd (P (snd e')) - snd (P (snd e)))) 0)%Q) es) es.
Lemma spikeb_ok P vs : spikeb P vs = true -> NoSpike P vs.
Proof.
  unfold spikeb. set (es := ring vs ++ map (fun e => (snd e, fst e)) (ring vs)). intros H a b c A B N O.
  assert (G : forall x y, Adjacent vs x y -> In (x, y) es). { intros x y [X|X]; apply in_or_app; [left; auto|right]. apply in_map_iff. exists (y, x). auto. }
  rewrite forallb_forall in H. specialize (H _ (G _ _ A)). rewrite forallb_forall in H. specialize (H _ (G _ _ B)). cbn [fst snd] in H. rewrite Nat.eqb_refl, (proj2 (Nat.eqb_neq a c) N), (proj2 (Qeq_bool_iff _ _) O) in H. cbn [negb orb] in H.
  apply Bool.negb_true_iff in H. apply Qnot_le_lt. intros L. apply Qle_bool_iff in L. congruence.
Qed.
(* points are told apart as uniquePoints does *)
Definition bdb (n : nat) (imap : list nat) (fs : list (list nat)) (vs : list nat) : bool :=
  let im k := nth k imap 0 in
  forallb (fun v => (v <? n) && forallb (fun j => negb (im j =? im v)) (seq 0 v)) vs &&
  (length fs =? length (ring vs)) &&
  forallb (fun '(f, e) => match f with [a; b] => (a <? n) && (b <? n) && (((im a =? im (fst e)) && (im b =? im (snd e))) || ((im a =? im (snd e)) && (im b =? im (fst e)))) | _ => false end) (combine fs (ring vs)).
Lemma bdb_ok n points same ups imap fs facets vs : MergedBy 2 points same ups imap -> n = length points / 2 -> 3 <= length vs -> NoDup vs -> Permutation fs facets -> bdb n imap fs vs = true -> Boundary n same facets vs.
Proof.
  intros M En L3 ND Pf H. unfold bdb in H. rewrite !Bool.andb_true_iff in H. destruct H as ((H1 & H2) & H3). rewrite forallb_forall in H1. apply Nat.eqb_eq in H2.
  assert (Im : forall k, k < n -> nth_error imap k = Some (nth k imap 0)). { intros k K. apply nth_error_nth'. rewrite (mb_len _ _ _ _ _ M). lia. }
  assert (Sm : forall i j, i < n -> j < n -> (nth i imap 0 = nth j imap 0 <-> same i j)). { intros i j Li Lj. apply (mb_same _ _ _ _ _ M); apply Im; auto. }
  assert (Rg : forall v, In v vs -> v < n). { intros v V. specialize (H1 v V). apply Bool.andb_true_iff in H1. apply Nat.ltb_lt, H1. }
  constructor; auto.
  - intros v j V J X. specialize (H1 v V). apply Bool.andb_true_iff in H1. destruct H1 as [_ H1]. rewrite forallb_forall in H1. specialize (H1 j ltac:(apply in_seq; lia)). apply Bool.negb_true_iff, Nat.eqb_neq in H1. pose proof (Rg v V). apply Sm in X; auto; lia.
  - exists fs. split; auto. assert (Rr : forall e, In e (ring vs) -> fst e < n /\ snd e < n).
    { intros [a b] I. assert (In a vs /\ In b vs) as [A B]. { destruct vs as [|x t]; [destruct I|]. unfold ring in I. split; [eapply in_combine_l; eauto|]. apply in_combine_r in I. apply in_app_or in I. destruct I as [I|[<-|[]]]; [right; auto|left; auto]. } auto. }
    revert H2 H3 Rr. generalize (ring vs). clear - Sm. induction fs as [|f fs IH]; intros [|e l] L H R; try discriminate; constructor.
    + cbn [combine forallb] in H. apply Bool.andb_true_iff in H. destruct H as [H _]. destruct f as [|a [|b [|]]]; try discriminate. rewrite !Bool.andb_true_iff, Bool.orb_true_iff, !Bool.andb_true_iff, !Nat.eqb_eq, !Nat.ltb_lt in H.
      destruct H as ((A & B) & H). destruct (R e ltac:(left; auto)) as [R1 R2]. exists a, b. split; auto. split; auto. split; auto. destruct H as [[X Y]|[X Y]]; [left|right]; split; apply Sm; auto.
    + cbn [combine forallb] in H. apply Bool.andb_true_iff in H. apply IH; [cbn in L; lia|apply H|]. intros. apply R. right. auto.
Qed.
Lemma in_box (points lo hi : list Q) : Nat.even (length points) = true -> forallb (fun i => Qle_bool (nth 0 lo 0) (nth (2 * i) points 0) && Qle_bool (nth (2 * i) points 0) (nth 0 hi 0) && Qle_bool (nth 1 lo 0) (nth (2 * i + 1) points 0) && Qle_bool (nth (2 * i + 1) points 0) (nth 1 hi 0))%Q (seq 0 (length points / 2)) = true ->
  forall i, i < length points / 2 -> Inside 2 lo hi (vertex 2 points i).
Proof.
  intros _ H i L j J. rewrite forallb_forall in H. specialize (H i ltac:(apply in_seq; lia)). rewrite !Bool.andb_true_iff, !Qle_bool_iff in H. unfold coord. rewrite <- vertex_nth by auto. destruct j as [|[|j]]; [rewrite Nat.add_0_r; tauto|tauto|lia].
Qed.
Lemma nest2 lo hi : (forall j, j < 2 -> (coord lo j <= coord hi j)%Q) -> Nested 2 lo hi lo hi.
Proof. intros H. constructor; auto; try discriminate; intros; apply Qle_refl. Qed.

Example simplify_case : let same i j := SameCell 2 [0; 0]%Q [2; 2]%Q (1 # 1000) (vertex 2 sq_points i) (vertex 2 sq_points j) in
  Boundary (length sq_points / 2) same sq_facets sq_ring /\ Clear (1 # 1000) (pos2 sq_points) sq_ring /\ NoSpike (pos2 sq_points) sq_ring /\
  simplify2 uint64_key sq_facets sq_points [0; 0]%Q [2; 2]%Q (1 # 1000) = Ok ([0; 0; 2; 0; 2; 2; 0; 2]%Q, [[0; 1]; [1; 2]; [2; 3]; [3; 0]]).
Proof.
  intros same. split; [|split; [apply clearb_ok; vm_compute; reflexivity|split; [apply spikeb_ok; vm_compute; reflexivity|vm_compute; reflexivity]]].
  destruct (unique_points_partial 2 sq_points [0; 0]%Q [2; 2]%Q (1 # 1000) (or_introl eq_refl) eq_refl) as (ups & imap & U & M).
  - apply nest2. intros [|[|j]] J; [vm_compute; discriminate|vm_compute; discriminate|lia].
  - apply in_box; vm_compute; reflexivity.
  - assert (imap = [0; 1; 2; 3; 4; 2; 5]) as Ei. { vm_compute in U. inversion U. auto. }
    apply (bdb_ok _ sq_points _ ups imap [[0; 1]; [2; 1]; [5; 3]; [6; 3]; [4; 6]; [0; 4]] _ _ M); auto; [cbn; lia| | |rewrite Ei; vm_compute; reflexivity].
    + unfold sq_ring. repeat constructor; cbn; intuition discriminate.
    + unfold sq_facets. do 3 constructor. apply perm_swap.
Qed.
Definition tri_points : list Q := [0; 0; 1; 0; 3; 0; 2; 2]%Q.
Example simplify_int_case : let same i j := SameColumn [0; 0]%Q [3; 2]%Q (1 # 1000) (vertex 2 tri_points i) (vertex 2 tri_points j) in
  Boundary (length tri_points / 2) same [[3; 2]; [0; 1]; [1; 2]; [0; 3]] [0; 1; 2; 3] /\ Clear (1 # 1000) (pos2 tri_points) [0; 1; 2; 3] /\ NoSpike (pos2 tri_points) [0; 1; 2; 3] /\
  simplify2 int_key [[3; 2]; [0; 1]; [1; 2]; [0; 3]] tri_points [0; 0]%Q [3; 2]%Q (1 # 1000) = Ok ([0; 0; 3; 0; 2; 2]%Q, [[1; 2]; [2; 0]; [0; 1]]).
Proof.
  intros same. split; [|split; [apply clearb_ok; vm_compute; reflexivity|split; [apply spikeb_ok; vm_compute; reflexivity|vm_compute; reflexivity]]].
  destruct (unique_points_int_partial tri_points [0; 0]%Q [3; 2]%Q (1 # 1000) eq_refl) as (ups & imap & U & M).
  - apply nest2. intros [|[|j]] J; [vm_compute; discriminate|vm_compute; discriminate|lia].
  - apply in_box; vm_compute; reflexivity.
  - assert (imap = [0; 1; 2; 3]) as Ei. { vm_compute in U. inversion U. auto. }
    apply (bdb_ok _ tri_points _ ups imap [[0; 1]; [1; 2]; [3; 2]; [0; 3]] _ _ M); auto; [cbn; lia| | |rewrite Ei; vm_compute; reflexivity].
    + repeat constructor; cbn; intuition discriminate.
    + apply Permutation_sym. apply (Permutation_cons_app [[0; 1]; [1; 2]] [[0; 3]] [3; 2]). auto.
Qed.

(* ---- where the code fails ---- *)
(* twice the area inside a closed boundary, positive when it runs counterclockwise *)
Definition area2 (P : nat -> p2) (vs : list nat) : Q := fold_right Qplus 0%Q (map (fun e => fst (P (fst e)) * snd (P (snd e)) - fst (P (snd e)) * snd (P (fst e)))%Q (ring vs)).
Definition pairs (vs : list nat) : list (list nat) := map (fun e => [fst e; snd e]) (ring vs).
Definition unit_points : list Q := [0; 0; 1; 0; 1; 1; 0; 1]%Q.
(* A boundary given head to tail and counterclockwise comes back clockwise: what was inside is
   now outside. *)
Theorem simplify_turned_refuted : exists facets points tol vs points' facets' ns,
  let same i j := SameCell 2 [0; 0]%Q [1; 1]%Q tol (vertex 2 points i) (vertex 2 points j) in
  Boundary (length points / 2) same facets vs /\ (0 < tol)%Q /\ Clear tol (pos2 points) vs /\ NoSpike (pos2 points) vs /\
  facets = pairs vs /\ (0 < area2 (pos2 points) vs)%Q /\
  simplify2 uint64_key facets points [0; 0]%Q [1; 1]%Q tol = Ok (points', facets') /\ facets' = pairs ns /\ (area2 (pos2 points') ns < 0)%Q.
Proof.
  exists (pairs [3; 0; 1; 2]), unit_points, (1 # 1000), [3; 0; 1; 2], unit_points, (pairs [0; 3; 2; 1]), [0; 3; 2; 1]. intros same.
  split; [|split; [lra|split; [apply clearb_ok; vm_compute; reflexivity|split; [apply spikeb_ok; vm_compute; reflexivity|split; [reflexivity|split; [vm_compute; reflexivity|split; [vm_compute; reflexivity|split; [reflexivity|vm_compute; reflexivity]]]]]]]].
  destruct (unique_points_partial 2 unit_points [0; 0]%Q [1; 1]%Q (1 # 1000) (or_introl eq_refl) eq_refl) as (ups & imap & U & M).
  - apply nest2. intros [|[|j]] J; [vm_compute; discriminate|vm_compute; discriminate|lia].
  - apply in_box; vm_compute; reflexivity.
  - assert (imap = [0; 1; 2; 3]) as Ei. { vm_compute in U. inversion U. auto. }
    apply (bdb_ok _ unit_points _ ups imap (pairs [3; 0; 1; 2]) _ _ M); auto; [cbn; lia| |rewrite Ei; vm_compute; reflexivity].
    repeat constructor; cbn; intuition discriminate.
Qed.
Print Assumptions simplify_turned_refuted.

(* With an int key, points far apart count as one and the boundary falls apart. *)
Theorem simplify_int_refuted : exists facets points tol vs,
  let same i j := SameCell 2 [0; 0]%Q [2; 2]%Q tol (vertex 2 points i) (vertex 2 points j) in
  Boundary (length points / 2) same facets vs /\ (0 < tol)%Q /\ Clear tol (pos2 points) vs /\ NoSpike (pos2 points) vs /\
  simplify2 int_key facets points [0; 0]%Q [2; 2]%Q tol = Abort.
Proof.
  set (points := [0; 0; 1; 0; 2; 0; 2; 1; 2; 2; 0; 2]%Q). exists [[5; 0]; [0; 1]; [1; 2]; [3; 2]; [4; 5]; [3; 4]], points, (1 # 1000), [0; 1; 2; 3; 4; 5]. intros same.
  split; [|split; [lra|split; [apply clearb_ok; vm_compute; reflexivity|split; [apply spikeb_ok; vm_compute; reflexivity|vm_compute; reflexivity]]]].
  destruct (unique_points_partial 2 points [0; 0]%Q [2; 2]%Q (1 # 1000) (or_introl eq_refl) eq_refl) as (ups & imap & U & M).
  - apply nest2. intros [|[|j]] J; [vm_compute; discriminate|vm_compute; discriminate|lia].
  - apply in_box; vm_compute; reflexivity.
  - assert (imap = [0; 1; 2; 3; 4; 5]) as Ei. { vm_compute in U. inversion U. auto. }
    apply (bdb_ok _ points _ ups imap [[0; 1]; [1; 2]; [3; 2]; [3; 4]; [4; 5]; [5; 0]] _ _ M); auto; [cbn; lia| | |rewrite Ei; vm_compute; reflexivity].
    + repeat constructor; cbn; intuition discriminate.
    + apply Permutation_sym. apply (Permutation_cons_app [[0; 1]; [1; 2]; [3; 2]; [3; 4]; [4; 5]] [] [5; 0]). rewrite app_nil_r. do 3 constructor. apply perm_swap.
Qed.
Print Assumptions simplify_int_refuted.
