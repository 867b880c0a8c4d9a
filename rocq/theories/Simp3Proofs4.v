(* Proofs about simplifying the surface of a solid: the way around a patch of facets. *)
From Coq Require Import QArith Qabs Lqa Permutation Sorted.
From Verif Require Import Base BaseFacts KeyMapModel FaceSortModel FaceSortSpec FaceSortProofs FaceSortProofs2 FaceSortProofs3 FaceSortProofs4 Plane PLCSpec MeshEditorModel RayModel Hull3Model
  SimplifyProofs4 SimplifyProofs5 Simp3Model Simp3Spec Simp3Proofs Simp3Proofs3.
Local Open Scope nat_scope.

(* the hashed edge *)
Definition hz (e : nat * nat) : Z * Z := if (Z.of_nat (fst e) <? Z.of_nat (snd e))%Z then (Z.of_nat (fst e), Z.of_nat (snd e)) else (Z.of_nat (snd e), Z.of_nat (fst e)).
Lemma edge_eqb_iff a b : edge_eqb a b = true <-> a = b.
Proof. destruct a as [a1 a2], b as [b1 b2]. unfold edge_eqb. cbn [fst snd]. rewrite Bool.andb_true_iff, !Z.eqb_eq. split; [intros [-> ->]; auto|intros E; inversion E; auto]. Qed.
Lemma hz_sym a b : hz (a, b) = hz (b, a).
Proof. unfold hz. cbn [fst snd]. destruct (Z.ltb_spec (Z.of_nat a) (Z.of_nat b)), (Z.ltb_spec (Z.of_nat b) (Z.of_nat a)); auto; try lia. f_equal; lia. Qed.
Lemma hz_eqb a b e : edge_eqb (hz (a, b)) (hz e) = ((fst e =? a) && (snd e =? b)) || ((fst e =? b) && (snd e =? a)).
Proof.
  apply Bool.eq_true_iff_eq. rewrite edge_eqb_iff, Bool.orb_true_iff, !Bool.andb_true_iff, !Nat.eqb_eq. destruct e as [c d]. cbn [fst snd]. unfold hz. cbn [fst snd].
  split.
  - destruct (Z.ltb_spec (Z.of_nat a) (Z.of_nat b)), (Z.ltb_spec (Z.of_nat c) (Z.of_nat d)); intros E; inversion E; lia.
  - intros [[-> ->]|[-> ->]]; auto. apply hz_sym.
Qed.
Lemma uses_hz es a b : uses es a b = ecount (map hz es) (hz (a, b)).
Proof.
  unfold uses, ecount. induction es as [|e es IH]; [reflexivity|]. cbn [filter map]. rewrite hz_eqb. destruct (_ || _); cbn [length]; auto.
Qed.
Lemma ecount_perm l l' e : Permutation l l' -> ecount l e = ecount l' e.
Proof. intros P. unfold ecount. induction P; cbn [filter]; auto; [destruct (edge_eqb e x); cbn; auto| |congruence]. destruct (edge_eqb e x), (edge_eqb e y); auto. Qed.
Lemma uses_perm es es' a b : Permutation es es' -> uses es a b = uses es' a b.
Proof. intros P. rewrite !uses_hz. apply ecount_perm, Permutation_map, P. Qed.
Lemma ecount_in l e : 0 < ecount l e <-> In e l.
Proof.
  unfold ecount. induction l as [|x l IH]; cbn [filter In length]; [split; [lia|tauto]|]. destruct (edge_eqb e x) eqn:E; cbn [length].
  - apply edge_eqb_iff in E. subst. split; auto. lia.
  - rewrite IH. split; auto. intros [->|I]; auto. exfalso. rewrite (proj2 (edge_eqb_iff e e) eq_refl) in E. discriminate.
Qed.
Lemma ecount_once l e : NoDup l -> ecount l e = if existsb (edge_eqb e) l then 1 else 0.
Proof.
  induction l as [|x l IH]; intros N; [reflexivity|]. inversion N as [|? ? Nx N']; subst. cbn [existsb]. unfold ecount in *. cbn [filter]. destruct (edge_eqb e x) eqn:E; cbn [length orb]; auto.
  rewrite IH by auto. apply edge_eqb_iff in E. subst x. destruct (existsb (edge_eqb e) l) eqn:Ex; auto. exfalso. apply existsb_exists in Ex. destruct Ex as (y & I & Ey). apply edge_eqb_iff in Ey. subst. auto.
Qed.
Lemma sorted_nodup l : StronglySorted (fun a b => edge_lt a b = true) l -> NoDup l.
Proof. induction 1 as [|a l S IH F]; constructor; auto. intros I. rewrite Forall_forall in F. pose proof (F a I) as X. rewrite edge_irr in X. discriminate. Qed.
Lemma once_ok all : NoDup (once_edges all) /\ forall e, In e (once_edges all) <-> ecount all e = 1.
Proof.
  unfold once_edges.
  assert (G : forall l s, StronglySorted (fun a b => edge_lt a b = true) s -> StronglySorted (fun a b => edge_lt a b = true) (fold_left (fun s e => oinsert edge_lt e s) l s) /\
     forall e, In e (fold_left (fun s e => oinsert edge_lt e s) l s) <-> In e l \/ In e s).
  { induction l as [|x l IH]; intros s S; cbn [fold_left]; [split; auto; intros e; cbn; tauto|]. destruct (IH (oinsert edge_lt x s)) as [A B]; [apply (FaceSortProofs.oinsert_sorted edge_lt (fun e => e) edge_tra edge_tot); auto|]. split; auto.
    intros e. rewrite B, (FaceSortProofs.oinsert_in edge_lt (fun e => e) edge_tot). cbn [In]. split; intros; intuition. }
  destruct (G (filter (fun e => ecount all e =? 1) all) []) as [A B]; [constructor|]. split; [apply sorted_nodup; auto|].
  intros e. rewrite B, filter_In, Nat.eqb_eq. split; [intros [[_ X]|[]]; auto|]. intros X. left. split; auto. apply ecount_in. lia.
Qed.
Lemma facet_edges_ok im es : Simp3Model.facet_edges im = Ok es -> es = map hz (ring im) /\ forall e, In e (ring im) -> fst e <> snd e.
Proof.
  unfold Simp3Model.facet_edges. intros H. apply mmap_inv in H.
  assert (G : forall j e, nth_error es j = Some e -> exists a b, nth_error im j = Some a /\ nth_error im ((j + 1) mod length im) = Some b /\ a <> b /\ e = hz (a, b)).
  { intros j e E. destruct (Forall2_nth_r _ _ _ _ _ H E) as (i & I & F). pose proof (nth_error_lt _ _ _ I) as L. rewrite seq_length in L. rewrite nth_error_seq in I by auto. inversion I; subst i. cbn [plus] in F.
    apply bind_ok in F as (a & A & F). apply bind_ok in F as (b & B & F). apply get_ok in A, B. unfold hashEdge in F. apply bind_ok in F as (u & U & F). apply assert_ok, Bool.negb_true_iff, Z.eqb_neq in U. inversion F; subst e.
    exists a, b. repeat split; auto. }
  assert (L : length es = length im) by (rewrite <- (Forall2_len _ _ _ H), seq_length; auto). split.
  - apply nth_error_ext. intros j. rewrite nth_error_map. destruct (nth_error es j) as [e|] eqn:E.
    + destruct (G j e E) as (a & b & A & B & _ & ->). rewrite (ring_at im j a b A B). reflexivity.
    + apply nth_error_None in E. rewrite (proj2 (nth_error_None (ring im) j)) by (rewrite ring_len; lia). reflexivity.
  - intros [a b] I. apply ring_in_nth in I. destruct I as (i & A & B). destruct (nth_error_ex es i) as [e E]; [rewrite L; eapply nth_error_lt; eauto|]. destruct (G i e E) as (a' & b' & A' & B' & N & _). cbn. congruence.
Qed.
(* all edges of a patch, as node numbers *)
Definition patch_edges (ims : list (list nat)) (G : list nat) : list (nat * nat) := flat_map (fun g => ring (nth g ims [])) G.
Lemma patch_edges_ok ims G alls : mmap (fun g => do im <- get ims g; Simp3Model.facet_edges im) G = Ok alls ->
  concat alls = map hz (patch_edges ims G) /\ (forall e, In e (patch_edges ims G) -> fst e <> snd e).
Proof.
  intros H. apply mmap_inv in H. induction H as [|g es G alls F H IH]; [split; [reflexivity|intros e []]|]. destruct IH as [IH1 IH2].
  apply bind_ok in F as (im & E & F). apply get_ok in E. apply facet_edges_ok in F. destruct F as [-> N]. unfold patch_edges. cbn [flat_map concat]. rewrite (nth_error_nth _ _ [] E), map_app.
  split; [f_equal; exact IH1|]. intros e I. apply in_app_or in I. destruct I; auto.
Qed.

Lemma q_opp a b : (- (b - a))%Q = (a - b)%Q.
Proof. destruct a as [an ad], b as [bn bd]. unfold Qminus, Qplus, Qopp. cbn [Qnum Qden]. f_equal; [ring|apply Pos.mul_comm]. Qed.
Lemma opp_sub a b : opp3 (sub3 b a) = sub3 a b.
Proof. destruct a as [[a1 a2] a3], b as [[b1 b2] b3]. unfold opp3, sub3. cbn [X3 Y3 Z3]. rewrite !q_opp. reflexivity. Qed.

Lemma ring_snd {A} (l : list A) : map snd (ring l) = rot l.
Proof.
  destruct l as [|a t]; [reflexivity|]. unfold ring, rot. assert (G : forall (l l' : list A), length l = length l' -> map snd (combine l l') = l'); [|apply G; rewrite app_length; cbn; lia].
  induction l as [|x l IH]; intros [|y l'] L; try discriminate; cbn; auto. f_equal. apply IH. auto.
Qed.

Lemma ok_inj {A} (a b : A) : Ok a = Ok b -> a = b.
Proof. congruence. Qed.

Section Outline.
Context (pts : list Q) (tol : Q) (all : list (nat * nat)) (Nall : forall e, In e all -> fst e <> snd e).
Notation edges := (once_edges (map hz all)).
Context (rs : list Z) (PM : Permutation (map pid rs) (seq 0 (length edges))) (HT : head_to_tail edges rs).
Definition vto (z : Z) : nat := Z.to_nat (end_of edges z).
Definition vfrom (z : Z) : nat := Z.to_nat (start_of edges z).
Definition way : list nat := map vto rs.
Lemma rs_len : length rs = length edges.
Proof using PM. rewrite <- (map_length pid rs), (Permutation_length PM), seq_length. auto. Qed.
Lemma rs_edge z : In z rs -> In (edge_at edges (pid z)) edges.
Proof using PM. intros I. apply nth_In. assert (X : In (pid z) (map pid rs)) by (apply in_map; auto). apply (Permutation_in _ PM), in_seq in X. lia. Qed.
Lemma edge_nat e : In e edges -> exists ab, In ab all /\ e = hz ab.
Proof using. intros I. apply (proj2 (once_ok (map hz all))) in I. assert (X : In e (map hz all)) by (apply ecount_in; lia). apply in_map_iff in X. destruct X as (ab & E & J). eauto. Qed.
Lemma vfrom_z z : In z rs -> Z.of_nat (vfrom z) = start_of edges z /\ Z.of_nat (vto z) = end_of edges z /\ In (vto z) (flat_map (fun e => [fst e; snd e]) all) /\ hz (vfrom z, vto z) = edge_at edges (pid z).
Proof using PM.
  intros I. destruct (edge_nat _ (rs_edge z I)) as ([a b] & J & E). unfold vfrom, vto, start_of, end_of. rewrite E.
  assert (Ja : In a (flat_map (fun e => [fst e; snd e]) all)) by (apply in_flat_map; exists (a, b); cbn; auto). assert (Jb : In b (flat_map (fun e => [fst e; snd e]) all)) by (apply in_flat_map; exists (a, b); cbn; auto).
  assert (H : exists c d, hz (a, b) = (Z.of_nat c, Z.of_nat d) /\ (c, d) = (a, b) \/ hz (a, b) = (Z.of_nat c, Z.of_nat d) /\ (c, d) = (b, a)).
  { unfold hz. cbn [fst snd]. destruct (_ <? _)%Z; [exists a, b|exists b, a]; auto. }
  destruct H as (c & d & H). assert (Eh : hz (a, b) = (Z.of_nat c, Z.of_nat d)) by tauto. assert (Ehz : hz (c, d) = hz (a, b)). { destruct H as [[_ X]|[_ X]]; inversion X; auto. apply hz_sym. }
  rewrite Eh in *. cbn [fst snd]. assert (Jc : In c (flat_map (fun e => [fst e; snd e]) all) /\ In d (flat_map (fun e => [fst e; snd e]) all)) by (destruct H as [[_ X]|[_ X]]; inversion X; auto).
  destruct (0 <=? z)%Z; rewrite !Nat2Z.id; repeat split; try tauto. rewrite hz_sym. auto.
Qed.
Lemma next_at j z z' : nth_error rs j = Some z -> nth_error rs ((j + 1) mod length rs) = Some z' -> vto z = vfrom z'.
Proof using HT. intros A B. pose proof (HT j z z' A B) as X. rewrite (proj2 (sedge_ends edges z)), (proj1 (sedge_ends edges z')) in X. unfold vto, vfrom. congruence. Qed.
Lemma way_edges : Permutation (ring way) (map (fun z => (vfrom z, vto z)) rs).
Proof using HT.
  unfold way. rewrite ring_map. rewrite (Permutation_map (fun z => (vfrom z, vto z)) (rot_perm rs)), <- ring_snd, map_map.
  assert (G : forall e, In e (ring rs) -> (vto (fst e), vto (snd e)) = (vfrom (snd e), vto (snd e))).
  { intros [z z'] I. apply ring_in_nth in I. destruct I as (i & A & B). cbn [fst snd]. f_equal. eapply next_at; eauto. }
  rewrite (map_ext_in _ _ _ G). reflexivity.
Qed.
Theorem way_uses a b : uses (ring way) a b = if uses all a b =? 1 then 1 else 0.
Proof using PM HT.
  rewrite (uses_perm _ _ _ _ way_edges), !uses_hz, map_map.
  assert (G : forall z, In z rs -> hz (vfrom z, vto z) = edge_at edges (pid z)) by (intros z I; apply vfrom_z; auto).
  rewrite (map_ext_in _ _ _ G), <- (map_map pid (edge_at edges)), (ecount_perm _ _ _ (Permutation_map _ PM)). unfold edge_at. rewrite list_index.
  destruct (once_ok (map hz all)) as [N O]. rewrite ecount_once by auto. destruct (existsb (edge_eqb (hz (a, b))) edges) eqn:E.
  - apply existsb_exists in E. destruct E as (e & I & Ee). apply edge_eqb_iff in Ee. subst e. apply O in I. rewrite I. reflexivity.
  - destruct (Nat.eqb_spec (ecount (map hz all) (hz (a, b))) 1) as [X|X]; auto. exfalso. apply O in X. rewrite <- Bool.not_true_iff_false in E. apply E. apply existsb_exists. exists (hz (a, b)). split; auto. apply edge_eqb_iff. auto.
Qed.
Lemma way_in v : In v way -> In v (flat_map (fun e => [fst e; snd e]) all).
Proof using PM. unfold way. intros I. apply in_map_iff in I. destruct I as (z & <- & I). apply vfrom_z. auto. Qed.
Lemma along_ok z p : In z rs -> along_edge pts edges z = Ok p -> p = sub3 (pos3 pts (vto z)) (pos3 pts (vfrom z)).
Proof using.
  intros I H. unfold along_edge in H. apply bind_ok in H as (e & E & H). apply get_ok in E. apply bind_ok in H as (a & A & H). apply bind_ok in H as (b & B & H). apply pat_ok in A, B. destruct A as [-> _], B as [-> _]. apply ok_inj in H. subst p.
  unfold vto, vfrom, start_of, end_of, edge_at. rewrite (nth_error_nth _ _ _ E). destruct (0 <=? z)%Z; auto. apply opp_sub.
Qed.
Lemma pick_concat {A} (f : nat -> res (list A)) (b : nat -> bool) (v : nat -> A) ns l : mmap f ns = Ok l -> (forall j x, In j ns -> f j = Ok x -> x = if b j then [v j] else []) -> concat l = map v (filter b ns).
Proof using.
  intros H F. apply mmap_inv in H. induction H as [|j x ns l E H IH]; [reflexivity|]. cbn [concat filter]. rewrite IH by (intros; apply F; auto; right; auto). rewrite (F j x (or_introl eq_refl) E). destruct (b j); reflexivity.
Qed.
Theorem corners_ok cs : outline_corners pts tol edges rs = Ok cs -> Corners (pos3 pts) tol way cs.
Proof using PM HT.
  unfold outline_corners. intros H. apply bind_ok in H as (l & M & H). inversion H; subst cs. clear H.
  assert (Lw : length way = length edges) by (unfold way; rewrite map_length, rs_len; auto).
  set (b := fun j => let z := nth j rs 0%Z in let z' := nth ((j + 1) mod length rs) rs 0%Z in bendb tol (sub3 (pos3 pts (vto z)) (pos3 pts (vfrom z))) (sub3 (pos3 pts (vto z')) (pos3 pts (vfrom z')))).
  exists (filter b (seq 0 (length edges))). split; [|split].
  - apply (pick_concat _ b (fun i => nth i way 0) _ _ M). clear M l. intros j x Ij H. apply in_seq in Ij. cbn [plus] in Ij.
    apply bind_ok in H as (z & Zj & H). apply bind_ok in H as (z' & Zk & H). apply bind_ok in H as (ej & Ej & H). apply bind_ok in H as (ek & Ek & H). apply bind_ok in H as (u & _ & H).
    apply bind_ok in H as (jh & Jh & H). apply bind_ok in H as (kh & Kh & H). apply get_ok in Zj, Zk, Ej, Ek. rewrite <- rs_len in Zk. injection H as <-.
    apply along_ok in Jh, Kh; try (eapply nth_error_In; eauto). subst jh kh. unfold b. rewrite (nth_error_nth _ _ 0%Z Zj), (nth_error_nth _ _ 0%Z Zk). cbv zeta.
    destruct (bendb _ _ _); auto. f_equal. unfold way. rewrite (nth_error_nth (map vto rs) j 0 (x := vto z)) by (rewrite nth_error_map, Zj; auto). rewrite (next_at j z z') by auto.
    unfold vfrom, start_of, edge_at. rewrite (nth_error_nth _ _ _ Ek). f_equal. destruct (Z.ltb_spec z' 0), (Z.leb_spec 0 z'); auto; lia.
  - apply filter_sorted_lt, seq_sorted.
  - intros i. rewrite filter_In, in_seq. rewrite Lw. cbn [plus].
    assert (X : i < length edges -> (b i = true <-> Bends tol (pos3 pts (before way i)) (pos3 pts (nth i way 0)) (pos3 pts (after way i)))).
    { intros Li. destruct (nth_error_ex rs i) as [z Z1]; [rewrite rs_len; auto|]. destruct (nth_error_ex rs ((i + 1) mod length rs)) as [z' Z2]; [apply Nat.mod_upper_bound; rewrite rs_len; lia|].
      set (p := (i + length rs - 1) mod length rs). assert (Lp : p < length rs) by (apply Nat.mod_upper_bound; rewrite rs_len; lia). destruct (nth_error_ex rs p Lp) as [y Y].
      assert (Ep : (p + 1) mod length rs = i). { unfold p. rewrite Nat.add_mod_idemp_l by (rewrite rs_len; lia). replace (i + length rs - 1 + 1) with (i + 1 * length rs) by (rewrite rs_len; lia). rewrite Nat.mod_add by (rewrite rs_len; lia). apply Nat.mod_small. rewrite rs_len. auto. }
      assert (Nx : vto y = vfrom z) by (apply (next_at p); auto; rewrite Ep; auto). assert (Nx' : vto z = vfrom z') by (apply (next_at i); auto).
      unfold before, after. replace (length way) with (length rs) by (rewrite rs_len; auto). fold p. unfold way.
      rewrite (nth_error_nth (map vto rs) p 0 (x := vto y)) by (rewrite nth_error_map, Y; auto). rewrite (nth_error_nth (map vto rs) i 0 (x := vto z)) by (rewrite nth_error_map, Z1; auto).
      rewrite (nth_error_nth (map vto rs) ((i + 1) mod length rs) 0 (x := vto z')) by (rewrite nth_error_map, Z2; auto).
      unfold b. rewrite (nth_error_nth _ _ 0%Z Z1), (nth_error_nth _ _ 0%Z Z2). cbv zeta. rewrite bend_iff, Nx, Nx'. reflexivity. }
    split; intros [A B]; (split; [lia|]); apply X; auto; lia.
Qed.
End Outline.
