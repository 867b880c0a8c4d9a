(* Proofs about simplifyPLCfacets: putting the edges in order. *)
From Verif Require Import Base BaseFacts KeyMapModel FaceSortModel FaceSortSpec FaceSortProofs FaceSortProps Plane PLCSpec HashModel HashSpec SimplifyModel SimplifySpec.
From Coq Require Import QArith Permutation.
Local Open Scope nat_scope.

Lemma combine_nth' {A B} (l : list A) (l' : list B) i a b : nth_error l i = Some a -> nth_error l' i = Some b -> nth_error (combine l l') i = Some (a, b).
Proof. revert l' i. induction l as [|x l IH]; intros [|y l'] [|i]; cbn; intros H1 H2; try discriminate; [congruence|]. eauto. Qed.
Lemma rot_nth {A} (a : A) t i : i < length (a :: t) -> nth_error (t ++ [a]) i = nth_error (a :: t) ((i + 1) mod length (a :: t)).
Proof.
  intros L. cbn [length] in *. destruct (Nat.eq_dec i (length t)) as [->|N].
  - rewrite nth_error_app2, Nat.sub_diag by lia. replace (length t + 1) with (S (length t)) by lia. rewrite Nat.mod_same by lia. reflexivity.
  - rewrite nth_error_app1 by lia. rewrite Nat.mod_small by lia. rewrite Nat.add_1_r. reflexivity.
Qed.
Lemma ring_at {A} (l : list A) i a b : nth_error l i = Some a -> nth_error l ((i + 1) mod length l) = Some b -> nth_error (ring l) i = Some (a, b).
Proof.
  intros H1 H2. destruct l as [|x t]; [destruct i; discriminate|]. unfold ring. apply combine_nth'; auto. rewrite rot_nth; auto. apply nth_error_lt in H1. auto.
Qed.
Lemma ring_len {A} (l : list A) : length (ring l) = length l.
Proof. destruct l as [|a t]; [reflexivity|]. unfold ring. rewrite combine_length, app_length. cbn [length]. lia. Qed.
Lemma ring_of {A} (ds : list (A * A)) : (forall i d d', nth_error ds i = Some d -> nth_error ds ((i + 1) mod length ds) = Some d' -> snd d = fst d') -> ds = ring (map fst ds).
Proof.
  intros H. apply nth_error_ext. intros i. destruct (nth_error ds i) as [d|] eqn:E.
  - assert (L : i < length ds) by (apply nth_error_lt in E; auto). destruct (nth_error_ex ds ((i + 1) mod length ds)) as [d' E']; [apply Nat.mod_upper_bound; lia|].
    symmetry. rewrite (ring_at (map fst ds) i (fst d) (fst d')).
    + rewrite <- (H i d d' E E'). destruct d; auto.
    + rewrite nth_error_map, E. auto.
    + rewrite map_length, nth_error_map, E'. auto.
  - symmetry. apply nth_error_None. apply nth_error_None in E. rewrite ring_len, map_length. auto.
Qed.
Lemma ring_in_nth {A} (l : list A) a b : In (a, b) (ring l) -> exists i, nth_error l i = Some a /\ nth_error l ((i + 1) mod length l) = Some b.
Proof.
  intros I. apply In_nth_error in I. destruct I as [i E]. exists i. assert (L : i < length l) by (apply nth_error_lt in E; rewrite ring_len in E; auto).
  destruct (nth_error_ex l i L) as [x Ex]. destruct (nth_error_ex l ((i + 1) mod length l)) as [y Ey]; [apply Nat.mod_upper_bound; lia|].
  rewrite (ring_at l i x y Ex Ey) in E. inversion E. subst. auto.
Qed.
Definition ends {A} (e : A * A) : list A := [fst e; snd e].
Lemma ends_combine {A} (l : list A) : forall l', length l = length l' -> Permutation (flat_map ends (combine l l')) (l ++ l').
Proof.
  induction l as [|a l IH]; intros [|b l'] L; try discriminate; [reflexivity|]. cbn. constructor. etransitivity; [|apply Permutation_middle]. constructor. apply IH. auto.
Qed.
Lemma ends_ring {A} (l : list A) : Permutation (flat_map ends (ring l)) (l ++ l).
Proof.
  destruct l as [|a t]; [reflexivity|]. unfold ring. rewrite ends_combine by (rewrite app_length; cbn [length]; lia). apply Permutation_app_head. rewrite Permutation_app_comm. reflexivity.
Qed.
Lemma double_perm (l l' : list Z) : Permutation (l ++ l) (l' ++ l') -> Permutation l l'.
Proof.
  intros H. apply (Permutation_count_occ Z.eq_dec). intros x. pose proof (proj1 (Permutation_count_occ Z.eq_dec _ _) H x) as E. rewrite !count_occ_app in E. lia.
Qed.
Lemma flat_forall2 {A B C} (R : A -> B -> Prop) (f : A -> list C) (g : B -> list C) l l' : (forall a b, R a b -> Permutation (f a) (g b)) -> Forall2 R l l' -> Permutation (flat_map f l) (flat_map g l').
Proof. intros H. induction 1; cbn; [reflexivity|]. apply Permutation_app; auto. Qed.
Lemma route_ring {E} (en : E -> Z * Z) x t : forall a es, Forall2 (fun e p => joins en e (fst p) (snd p)) es (combine (a :: t) (t ++ [x])) -> route en a es (t ++ [x]).
Proof.
  induction t as [|b t IH]; intros a es F; cbn [app combine] in F.
  - inversion F as [|e p es' ps J F' E1 E2]; subst. inversion F'; subst. cbn. auto.
  - inversion F as [|e p es' ps J F' E1 E2]; subst. cbn [app route]. split; auto.
Qed.
Lemma last_snoc {A} (l : list A) x d : last (l ++ [x]) d = x.
Proof. apply last_last. Qed.
Lemma list_index {A} (d : A) l : map (fun i => nth i l d) (seq 0 (length l)) = l.
Proof.
  apply nth_error_ext. intros i. rewrite nth_error_map. destruct (nth_error l i) as [x|] eqn:E.
  - assert (L : i < length l) by (apply nth_error_lt in E; auto). rewrite (nth_error_nth' (seq 0 (length l)) 0) by (rewrite seq_length; auto). rewrite seq_nth by auto. cbn. f_equal. apply nth_error_nth. auto.
  - apply nth_error_None in E. rewrite (proj2 (nth_error_None _ _)); auto. rewrite seq_length. auto.
Qed.
Lemma perm_index {A} (d : A) fs l : Permutation fs l -> exists is, Permutation is (seq 0 (length l)) /\ fs = map (fun i => nth i l d) is.
Proof.
  intros H. rewrite <- (list_index d l) in H. apply Permutation_map_inv in H. destruct H as (is & -> & P). exists is. split; [symmetry; auto|auto].
Qed.

Section Order.
Context (points : list Q) (same : nat -> nat -> Prop) (ups : list Q) (imap : list nat) (facets : list (list nat)) (vs : list nat).
Notation n := (length points / 2).
Hypothesis M : MergedBy 2 points same ups imap.
Hypothesis B : Boundary n same facets vs.
Definition im (i : nat) : nat := nth i imap 0.
Lemma im_at i : i < n -> nth_error imap i = Some (im i).
Proof. intros L. apply nth_error_nth'. rewrite (mb_len _ _ _ _ _ M). auto. Qed.
Lemma im_same i j : i < n -> j < n -> im i = im j <-> same i j.
Proof. intros Li Lj. apply (mb_same _ _ _ _ _ M); apply im_at; auto. Qed.
Lemma im_first v : In v vs -> vertex 2 ups (im v) = vertex 2 points v /\ im v < length ups / 2.
Proof.
  intros V. pose proof (bd_range _ _ _ _ B v V) as L. pose proof (mb_range _ _ _ _ _ M v (im v) (im_at v L)) as Rg.
  split; [|apply Nat.div_le_lower_bound; lia]. destruct (mb_first _ _ _ _ _ M (im v) ltac:(lia)) as (i & E & EV & F). rewrite EV. f_equal.
  assert (Li : i < n) by (apply nth_error_lt in E; rewrite (mb_len _ _ _ _ _ M) in E; auto). rewrite (im_at i Li) in E. injection E as E.
  destruct (Nat.lt_trichotomy i v) as [X|[X|X]]; auto; exfalso.
  - apply (bd_first _ _ _ _ B v i V X). apply im_same; auto.
  - specialize (F v (im v) X (im_at v L)). lia.
Qed.
Lemma im_inj v v' : In v vs -> In v' vs -> im v = im v' -> v = v'.
Proof.
  intros V V' E. pose proof (bd_range _ _ _ _ B v V) as L. pose proof (bd_range _ _ _ _ B v' V') as L'.
  destruct (Nat.lt_trichotomy v v') as [X|[X|X]]; auto; exfalso.
  - apply (bd_first _ _ _ _ B v' v V' X). apply im_same; auto.
  - apply (bd_first _ _ _ _ B v v' V X). apply im_same; auto.
Qed.
Definition rep (z : Z) : nat := match List.find (fun v => (Z.of_nat (im v) =? z)%Z) vs with Some v => v | None => 0 end.
Lemma rep_im v : In v vs -> rep (Z.of_nat (im v)) = v.
Proof.
  intros V. unfold rep. destruct (List.find _ vs) as [v'|] eqn:F.
  - apply find_some in F. destruct F as [V' E]. apply Z.eqb_eq in E. apply im_inj; auto. lia.
  - apply (find_none _ _ F) in V. rewrite Z.eqb_refl in V. discriminate.
Qed.
Definition zim (v : nat) : Z := Z.of_nat (im v).
(* a facet joins two different corners *)
Definition between_ (f : list nat) (e : nat * nat) : Prop := exists a b, f = [a; b] /\ a < n /\ b < n /\ ((im a = im (fst e) /\ im b = im (snd e)) \/ (im a = im (snd e) /\ im b = im (fst e))).
Lemma ring_both e : In e (ring vs) -> In (fst e) vs /\ In (snd e) vs /\ fst e <> snd e.
Proof.
  destruct e as [a b]. intros I. apply ring_in_nth in I. destruct I as (i & Ea & Eb). cbn [fst snd]. split; [eapply nth_error_In; eauto|]. split; [eapply nth_error_In; eauto|].
  intros <-. pose proof (nth_error_lt _ _ _ Ea) as L. pose proof (bd_three _ _ _ _ B). pose proof (proj1 (NoDup_nth_error vs) (bd_once _ _ _ _ B) i ((i + 1) mod length vs) L) as X. rewrite Ea, Eb in X. specialize (X eq_refl).
  destruct (Nat.eq_dec (i + 1) (length vs)) as [Y|Y]; [rewrite Y, Nat.mod_same in X by lia; lia|rewrite Nat.mod_small in X by lia; lia].
Qed.
Lemma facet_joins : exists fs, Permutation fs facets /\ Forall2 between_ fs (ring vs).
Proof.
  destruct (bd_facets _ _ _ _ B) as (fs & P & F). exists fs. split; auto.
  assert (G : forall l, (forall e, In e l -> In e (ring vs)) -> forall fs, Forall2 (fun f e => exists a b, f = [a; b] /\ a < n /\ b < n /\
      ((same a (fst e) /\ same b (snd e)) \/ (same a (snd e) /\ same b (fst e)))) fs l -> Forall2 between_ fs l).
  { induction l as [|e l IH]; intros Hl fs' F'; inversion F' as [|f ? ft ? H FT]; subst; constructor; [|apply IH; auto; intros; apply Hl; right; auto].
    destruct H as (a & b & -> & La & Lb & H). destruct (ring_both e (Hl e (or_introl eq_refl))) as (V1 & V2 & _). apply (bd_range _ _ _ _ B) in V1, V2.
    exists a, b. split; auto. split; auto. split; auto. rewrite !im_same by auto. auto. }
  apply G; auto.
Qed.
Definition edge_of (f : list nat) : Z * Z :=
  let a := zim (nth 0 f 0) in let b := zim (nth 1 f 0) in if (a <? b)%Z then (a, b) else (b, a).
Lemma edge_joins f e : between_ f e -> fst e <> snd e -> In (fst e) vs -> In (snd e) vs -> input_edge imap f = Ok (edge_of f) /\ (edge_of f = (zim (fst e), zim (snd e)) \/ edge_of f = (zim (snd e), zim (fst e))).
Proof.
  intros (a & b & -> & La & Lb & H) N V1 V2. assert (Nab : im a <> im b). { intros X. apply N. apply im_inj; auto. destruct H as [[<- <-]|[<- <-]]; auto. }
  split.
  - unfold input_edge. cbn [length Nat.eqb assert bind get nth_error]. rewrite (proj2 (get_ok _ _ _) (im_at a La)). cbn [bind]. rewrite (proj2 (get_ok _ _ _) (im_at b Lb)). cbn [bind].
    unfold hashEdge. destruct (Z.eqb_spec (Z.of_nat (im a)) (Z.of_nat (im b))); [lia|]. cbn [negb assert bind]. reflexivity.
  - unfold edge_of, zim. cbn [nth]. destruct H as [[<- <-]|[<- <-]]; destruct (Z.of_nat (im a) <? Z.of_nat (im b))%Z; auto.
Qed.
Lemma facet_any f : In f facets -> exists e, In e (ring vs) /\ between_ f e.
Proof. destruct facet_joins as (fs & P & F). intros I. apply (Permutation_in f (Permutation_sym P)) in I. destruct (Forall2_in_l _ _ _ _ F I) as (e & J & K). eauto. Qed.
Lemma edges_ok : mmap (input_edge imap) facets = Ok (map edge_of facets).
Proof. apply mmap_ok. intros f I. destruct (facet_any f I) as (e & J & K). destruct (ring_both e J) as (A1 & A2 & A3). apply (edge_joins f e K A3 A1 A2). Qed.
Lemma facets_len : length facets = length vs.
Proof. destruct facet_joins as (fs & P & F). rewrite <- (Permutation_length P), (Forall2_len _ _ _ F), ring_len. auto. Qed.
Lemma map_zim_nodup : NoDup (map zim vs).
Proof. pose proof (bd_once _ _ _ _ B) as N. assert (G : forall l, (forall v, In v l -> In v vs) -> NoDup l -> NoDup (map zim l)); [|apply G; auto].
  induction l as [|v l IH]; intros Hl Nl; cbn; constructor; inversion Nl as [|? ? Nv Nl']; subst.
  - intros I. apply in_map_iff in I. destruct I as (v' & E & I). apply Nv. replace v with v'; auto. apply im_inj; [apply Hl; right; auto|apply Hl; left; auto|]. unfold zim in E. lia.
  - apply IH; auto. intros. apply Hl. right. auto.
Qed.
Lemma ring_map {A C} (f : A -> C) l : ring (map f l) = map (fun e => (f (fst e), f (snd e))) (ring l).
Proof.
  destruct l as [|a t]; [reflexivity|]. unfold ring. cbn [map]. change [f a] with (map f [a]). rewrite <- map_app. change (f a :: map f t) with (map f (a :: t)).
  generalize (a :: t) as l. generalize (t ++ [a]) as l'. clear. intros l'. induction l' as [|x l' IH]; intros [|y l]; cbn; auto. f_equal. auto.
Qed.
Lemma closed_face : ClosedFace (map edge_of facets).
Proof.
  destruct facet_joins as (fs & P & F). destruct (perm_index [] fs facets P) as (is & Pi & E). exists is. rewrite map_length. split; auto.
  pose proof map_zim_nodup as ND. assert (T3 : 3 <= length (map zim vs)) by (rewrite map_length; apply (bd_three _ _ _ _ B)).
  assert (FJ : Forall2 (fun (e : nat) (p : Z * Z) => joins (fun i => nth i (map edge_of facets) (0, 0)%Z) e (fst p) (snd p)) is (ring (map zim vs))).
  { rewrite ring_map. rewrite E in F. assert (Li : forall i, In i is -> i < length facets) by (intros i I; apply (Permutation_in _ Pi) in I; apply in_seq in I; lia).
    assert (G : forall l, (forall e, In e l -> In e (ring vs)) -> forall is, (forall i, In i is -> i < length facets) -> Forall2 between_ (map (fun i => nth i facets []) is) l ->
      Forall2 (fun (e : nat) (p : Z * Z) => joins (fun i => nth i (map edge_of facets) (0, 0)%Z) e (fst p) (snd p)) is (map (fun e => (zim (fst e), zim (snd e))) l)); [|apply G; auto].
    induction l as [|e l IH]; intros Hl [|i is'] Hi F'; inversion F' as [|? ? ? ? H FT]; subst; cbn [map]; constructor; [|apply IH; auto; intros; [apply Hl|apply Hi]; right; auto].
    destruct (ring_both e (Hl e (or_introl eq_refl))) as (A1 & A2 & A3). unfold joins. cbn [fst snd]. rewrite (nth_indep _ (0, 0)%Z (edge_of [])) by (rewrite map_length; apply Hi; left; auto). rewrite map_nth.
    apply (edge_joins _ e H A3 A1 A2). }
  revert FJ ND T3. generalize (map zim vs). intros [|z0 zt] FJ ND T3; [cbn in T3; lia|]. exists z0, (zt ++ [z0]). split; [|split].
  - apply route_ring. exact FJ.
  - apply last_snoc.
  - eapply Permutation_NoDup; [|exact ND]. change (z0 :: zt) with ([z0] ++ zt). apply Permutation_app_comm.
Qed.
(* the edges in order *)
Notation edges := (map edge_of facets).
Lemma order_ok : exists rs us, computeSortedFaceEdges edges = Ok (false, edges, rs) /\ length rs = length vs /\
  mmap (fun i => do j <- get rs i; directed edges j) (seq 0 (length facets)) = Ok (ring us) /\
  Permutation us (map zim vs) /\ Boundary n same facets (map rep us).
Proof.
  destruct (sorted_edges_closed edges closed_face) as (rs & E & P & HT). { rewrite map_length, facets_len. apply (bd_three _ _ _ _ B). }
  rewrite map_length, facets_len in P. assert (Lr : length rs = length vs) by (apply Permutation_length in P; rewrite map_length, seq_length in P; auto).
  set (ds := map (sedge edges) rs). set (us := map fst ds).
  assert (Er : ds = ring us).
  { apply ring_of. unfold ds. intros i d d' H1 H2. rewrite map_length in H2. rewrite nth_error_map in H1, H2. destruct (nth_error rs i) as [z|] eqn:Z1; [|discriminate]. destruct (nth_error rs ((i + 1) mod length rs)) as [z'|] eqn:Z2; [|discriminate].
    injection H1 as <-. injection H2 as <-. apply (HT i z z' Z1 Z2). }
  assert (Rg : forall z, In z rs -> pid z < length facets). { intros z I. apply (in_map pid) in I. apply (Permutation_in _ P) in I. apply in_seq in I. rewrite facets_len. lia. }
  (* each directed edge is that of a facet *)
  assert (Sg : forall z, In z rs -> sedge edges z = edge_of (nth (pid z) facets []) \/ sedge edges z = (snd (edge_of (nth (pid z) facets [])), fst (edge_of (nth (pid z) facets [])))).
  { intros z I. unfold sedge. rewrite (nth_indep _ (0, 0)%Z (edge_of [])) by (rewrite map_length; apply Rg; auto). rewrite map_nth. destruct (0 <=? z)%Z; auto. }
  assert (Pf : Permutation (map (fun z => nth (pid z) facets []) rs) facets).
  { rewrite <- (map_map pid (fun i => nth i facets [])). etransitivity; [apply Permutation_map, P|]. rewrite <- facets_len, list_index. reflexivity. }
  (* the ends of all edges *)
  assert (Pu : Permutation us (map zim vs)).
  { apply double_perm. rewrite <- ends_ring, <- Er, <- ends_ring. unfold ds. destruct facet_joins as (fs & Pfs & F).
    transitivity (flat_map (fun f => ends (edge_of f)) facets).
    - transitivity (flat_map (fun f => ends (edge_of f)) (map (fun z => nth (pid z) facets []) rs)); [|apply Permutation_flat_map; auto].
      clear - Sg. induction rs as [|z rs IH]; cbn [map flat_map]; [reflexivity|]. apply Permutation_app; [|apply IH; intros; apply Sg; right; auto].
      destruct (Sg z (or_introl eq_refl)) as [-> | ->]; [reflexivity|]. unfold ends. cbn [fst snd]. apply perm_swap.
    - transitivity (flat_map (fun f => ends (edge_of f)) fs); [apply Permutation_flat_map, Permutation_sym; auto|]. rewrite ring_map.
      assert (G : forall l, (forall e, In e l -> In e (ring vs)) -> forall fs, Forall2 between_ fs l -> Permutation (flat_map (fun f => ends (edge_of f)) fs) (flat_map ends (map (fun e => (zim (fst e), zim (snd e))) l))); [|apply G; auto].
      induction l as [|e l IH]; intros Hl fs' F'; inversion F' as [|f ? ft ? H FT]; subst; cbn [map flat_map]; [reflexivity|]. apply Permutation_app; [|apply IH; auto; intros; apply Hl; right; auto].
      destruct (ring_both e (Hl e (or_introl eq_refl))) as (A1 & A2 & A3). destruct (proj2 (edge_joins f e H A3 A1 A2)) as [-> | ->]; [reflexivity|]. apply perm_swap. }
  exists rs, us. split; auto. split; auto. split; [|split; auto].
  - rewrite <- Er. unfold ds. rewrite facets_len, <- Lr. clear - Rg. 
    assert (G : forall l k, (forall i z, nth_error l i = Some z -> nth_error rs (k + i) = Some z) -> mmap (fun i => do j <- get rs i; directed edges j) (seq k (length l)) = Ok (map (sedge edges) l)); [|apply (G rs 0); auto].
    induction l as [|z l IH]; intros k H; [reflexivity|]. cbn [length seq mmap map]. pose proof (H 0 z eq_refl) as H0. rewrite Nat.add_0_r in H0. rewrite (proj2 (get_ok _ _ _) H0). cbn [bind].
    assert (D : directed edges z = Ok (sedge edges z)).
    { apply nth_error_In in H0. specialize (Rg z H0). unfold directed, sedge, pid, positiveID in *. destruct (Z.ltb_spec z 0); destruct (Z.leb_spec 0 z); try lia.
      - rewrite (proj2 (get_ok _ _ (nth (Z.to_nat (Z.lnot z)) edges (0, 0)%Z))); [reflexivity|]. apply nth_error_nth'. rewrite map_length. auto.
      - rewrite (proj2 (get_ok _ _ (nth (Z.to_nat z) edges (0, 0)%Z))); [reflexivity|]. apply nth_error_nth'. rewrite map_length. auto. }
    rewrite D. cbn [bind]. rewrite IH; [reflexivity|]. intros i z' Hi. replace (S k + i) with (k + S i) by lia. apply H. auto.
  - assert (Iu : forall z, In z us -> exists v, In v vs /\ z = zim v). { intros z I. apply (Permutation_in _ Pu) in I. apply in_map_iff in I. destruct I as (v & <- & I). eauto. }
    assert (Pr : Permutation (map rep us) vs). { etransitivity; [apply Permutation_map, Pu|]. rewrite map_map. apply Permutation_refl'. clear - M B. assert (G : forall l, (forall v, In v l -> In v vs) -> map (fun x => rep (zim x)) l = l); [|apply G; auto]. induction l as [|v l IH]; intros Hl; cbn [map]; auto. unfold zim at 1. rewrite rep_im by (apply Hl; left; auto). f_equal. apply IH. intros; apply Hl; right; auto. }
    constructor.
    + rewrite (Permutation_length Pr). apply (bd_three _ _ _ _ B).
    + eapply Permutation_NoDup; [symmetry; exact Pr|apply (bd_once _ _ _ _ B)].
    + intros v I. apply (Permutation_in _ Pr) in I. apply (bd_range _ _ _ _ B); auto.
    + intros v j I. apply (Permutation_in _ Pr) in I. apply (bd_first _ _ _ _ B); auto.
    + exists (map (fun z => nth (pid z) facets []) rs). split; auto. rewrite ring_map, <- Er. unfold ds. rewrite map_map.
      assert (G : forall l, (forall z, In z l -> In z rs) -> Forall2 (fun f e => exists a b, f = [a; b] /\ a < n /\ b < n /\ ((same a (fst e) /\ same b (snd e)) \/ (same a (snd e) /\ same b (fst e))))
          (map (fun z => nth (pid z) facets []) l) (map (fun z => (rep (fst (sedge edges z)), rep (snd (sedge edges z)))) l)); [|apply G; auto].
      induction l as [|z l IH]; intros Hl; cbn [map]; constructor; [|apply IH; intros; apply Hl; right; auto]. specialize (Hl z (or_introl eq_refl)). cbn [fst snd].
      assert (If : In (nth (pid z) facets []) facets) by (apply nth_In, Rg; auto). destruct (facet_any _ If) as (e & J & K). destruct (ring_both e J) as (A1 & A2 & A3).
      pose proof (proj2 (edge_joins _ e K A3 A1 A2)) as EJ. destruct K as (a & b & Ef & La & Lb & K). exists a, b. split; auto. split; auto. split; auto.
      assert (X : (rep (fst (sedge edges z)) = fst e /\ rep (snd (sedge edges z)) = snd e) \/ (rep (fst (sedge edges z)) = snd e /\ rep (snd (sedge edges z)) = fst e)).
      { destruct (Sg z Hl) as [-> | ->]; cbn [fst snd]; destruct EJ as [-> | ->]; cbn [fst snd]; unfold zim; rewrite !rep_im by auto; auto. }
      assert (Y : forall v, In v vs -> v < n) by (apply (bd_range _ _ _ _ B)).
      destruct X as [[-> ->]|[-> ->]]; rewrite <- !im_same by auto; tauto.
Qed.
End Order.
