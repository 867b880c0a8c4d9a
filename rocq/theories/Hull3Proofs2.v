(* Edges of closed surfaces, and counting them. *)
From Verif Require Import Base BaseFacts Plane PlaneFacts MeshEditorModel Hull3Model Hull3Spec.
From Coq Require Import QArith Lqa Permutation.
Local Open Scope nat_scope.

Definition edge_dec (e e' : nat * nat) : {e = e'} + {e <> e'}.
Proof. decide equality; apply Nat.eq_dec. Defined.
Definition flipe (e : nat * nat) : nat * nat := (snd e, fst e).
Definition hase (l : list (nat * nat)) (e : nat * nat) : bool := if in_dec edge_dec e l then true else false.
Lemma hase_in l e : hase l e = true <-> In e l.
Proof. unfold hase. destruct (in_dec edge_dec e l); split; auto; discriminate. Qed.
Lemma hase_out l e : hase l e = false <-> ~ In e l.
Proof. unfold hase. destruct (in_dec edge_dec e l); split; auto; [discriminate|contradiction]. Qed.
Lemma flipe_inv e : flipe (flipe e) = e.
Proof. destruct e; reflexivity. Qed.

(* the edges whose reverse is missing *)
Definition border (l : list (nat * nat)) : list (nat * nat) := filter (fun e => negb (hase l (flipe e))) l.
Lemma border_in l e : In e (border l) <-> In e l /\ ~ In (flipe e) l.
Proof. unfold border. rewrite filter_In, Bool.negb_true_iff, hase_out. reflexivity. Qed.
Lemma border_nodup l : NoDup l -> NoDup (border l).
Proof. apply NoDup_filter. Qed.

Lemma nodup_flip l : NoDup l -> NoDup (map flipe l).
Proof. intros N. apply FinFun.Injective_map_NoDup; auto. intros [a b] [c d] E. injection E as <- <-. reflexivity. Qed.
(* antisymmetric edge functions sum up over the border only *)
Lemma border_sum (g : nat * nat -> Q) l : NoDup l -> (forall e, g (flipe e) == - g e)%Q -> (sumf g l == sumf g (border l))%Q.
Proof.
  intros N G.
  assert (P : Permutation l (border l ++ filter (fun e => hase l (flipe e)) l)).
  { clear N G. assert (K : forall (p : nat * nat -> bool) l, Permutation l (filter (fun e => negb (p e)) l ++ filter p l)).
    { intros p l'. induction l' as [|e l' IH]; [reflexivity|]. cbn [filter]. destruct (p e); cbn [negb app].
      - rewrite IH at 1. apply Permutation_middle.
      - constructor. auto. }
    apply (K (fun e => hase l (flipe e))). }
  rewrite (sumf_perm g _ _ P), sumf_app. set (I := filter (fun e => hase l (flipe e)) l).
  assert (PI : Permutation I (map flipe I)).
  { apply NoDup_Permutation; [apply NoDup_filter; auto|apply nodup_flip, NoDup_filter; auto|].
    intros e. rewrite in_map_iff. unfold I. rewrite filter_In, hase_in. split.
    - intros [A B]. exists (flipe e). rewrite flipe_inv, filter_In, hase_in, flipe_inv. auto.
    - intros (e' & <- & B). rewrite filter_In, hase_in in B. rewrite flipe_inv. tauto. }
  assert (Z : (sumf g I == - sumf g I)%Q).
  { rewrite (sumf_perm g _ _ PI) at 1. rewrite sumf_map. rewrite (sumf_ext _ (fun e => (-1) * g e)%Q) by (intros; rewrite G; ring).
    rewrite sumf_scale. ring. }
  lra.
Qed.

(* the corners and edges of triangles *)
Notation tri3 := (nat * nat * nat)%type.
Lemma edge_of_tri (ts : list tri3) (e : nat * nat) : In e (flat_map tri_edges ts) -> exists c, exists t, In t ts /\
  (t = (fst e, snd e, c) \/ t = (c, fst e, snd e) \/ t = (snd e, c, fst e)).
Proof.
  rewrite in_flat_map. intros ([[a b] c] & I & J). cbn in J. destruct J as [<-|[<-|[<-|[]]]]; cbn [fst snd].
  - exists c. eexists. split; [exact I|]. auto.
  - exists a. eexists. split; [exact I|]. auto.
  - exists b. eexists. split; [exact I|]. auto.
Qed.

(* in a border without repeated starting points, an edge can be followed at both ends *)
Definition deg (v : nat) (e : nat * nat) : Q := ((if Nat.eqb (snd e) v then 1 else 0) - (if Nat.eqb (fst e) v then 1 else 0))%Q.
Lemma deg_flip v e : (deg v (flipe e) == - deg v e)%Q.
Proof. unfold deg, flipe. cbn [fst snd]. ring. Qed.
Lemma deg_tris v ts : (sumf (deg v) (flat_map tri_edges ts) == 0)%Q.
Proof.
  rewrite sumf_flat. rewrite (sumf_ext _ (fun _ => 0 * 0)%Q).
  - rewrite sumf_scale. ring.
  - intros [[a b] c] _. cbn. unfold deg. cbn [fst snd]. ring.
Qed.
Lemma border_balanced ts v : NoDup (flat_map tri_edges ts) -> (sumf (deg v) (border (flat_map tri_edges ts)) == 0)%Q.
Proof. intros N. rewrite <- border_sum; [apply deg_tris|auto|apply deg_flip]. Qed.
Lemma border_next ts a b : NoDup (flat_map tri_edges ts) -> (forall x y, In (x, y) (flat_map tri_edges ts) -> x <> y) ->
  In (a, b) (border (flat_map tri_edges ts)) -> exists c, In (b, c) (border (flat_map tri_edges ts)).
Proof.
  intros N D I. pose proof (border_balanced ts b N) as E. set (B := border _) in *.
  destruct (existsb (fun e => fst e =? b) B) eqn:X.
  { apply existsb_exists in X. destruct X as ([x c] & J & K). apply Nat.eqb_eq in K. cbn in K. subst x. eauto. }
  exfalso. assert (P : (0 < sumf (deg b) B)%Q).
  { assert (F : forall e, In e B -> (fst e =? b) = false).
    { intros e J. destruct (fst e =? b) eqn:Y; auto. assert (existsb (fun e => fst e =? b) B = true) by (apply existsb_exists; eauto). congruence. }
    apply (sumf_pos _ _ (a, b)); auto.
    - intros e J. unfold deg. rewrite (F e J). destruct (snd e =? b); lra.
    - unfold deg. rewrite (F _ I). cbn [snd]. rewrite Nat.eqb_refl. lra. }
  lra.
Qed.
Lemma border_prev ts a b : NoDup (flat_map tri_edges ts) -> (forall x y, In (x, y) (flat_map tri_edges ts) -> x <> y) ->
  In (a, b) (border (flat_map tri_edges ts)) -> exists c, In (c, a) (border (flat_map tri_edges ts)).
Proof.
  intros N D I. pose proof (border_balanced ts a N) as E. set (B := border _) in *.
  destruct (existsb (fun e => snd e =? a) B) eqn:X.
  { apply existsb_exists in X. destruct X as ([c x] & J & K). apply Nat.eqb_eq in K. cbn in K. subst x. eauto. }
  exfalso. assert (P : (0 < sumf (fun e => - deg a e) B)%Q).
  { assert (F : forall e, In e B -> (snd e =? a) = false).
    { intros e J. destruct (snd e =? a) eqn:Y; auto. assert (existsb (fun e => snd e =? a) B = true) by (apply existsb_exists; eauto). congruence. }
    apply (sumf_pos _ _ (a, b)); auto.
    - intros e J. unfold deg. rewrite (F e J). destruct (fst e =? a); lra.
    - unfold deg. rewrite (F _ I). cbn [fst]. rewrite Nat.eqb_refl. lra. }
  rewrite (sumf_ext _ (fun e => (-1) * deg a e)%Q) in P by (intros; ring). rewrite sumf_scale in P. lra.
Qed.
(* a border that is not empty has three edges *)
Lemma border_three ts a b : NoDup (flat_map tri_edges ts) -> (forall x y, In (x, y) (flat_map tri_edges ts) -> x <> y) ->
  In (a, b) (border (flat_map tri_edges ts)) -> 3 <= length (border (flat_map tri_edges ts)).
Proof.
  intros N D I. destruct (border_next _ _ _ N D I) as [c J]. destruct (border_next _ _ _ N D J) as [d K].
  assert (A1 : a <> b) by (apply D; apply border_in in I; tauto). assert (A2 : b <> c) by (apply D; apply border_in in J; tauto).
  assert (A3 : c <> a). { intros ->. apply border_in in I. apply border_in in J. destruct I as [_ X]. apply X. cbn. tauto. }
  change 3 with (length [(a, b); (b, c); (c, d)]). apply NoDup_incl_length.
  - constructor; [|constructor; [|constructor; [intros []|constructor]]]; cbn; intuition congruence.
  - intros e [<-|[<-|[<-|[]]]]; auto.
Qed.

(* ---- counting ---- *)
Definition ekey (e : nat * nat) : nat * nat := if fst e <? snd e then e else flipe e.
Lemma hashPair_ok i j : i <> j -> hashPair i j = Ok (ekey (i, j)).
Proof. intros N. unfold hashPair, ekey, flipe. cbn [fst snd]. apply Nat.eqb_neq in N. rewrite N. cbn. reflexivity. Qed.
Lemma pair_eqb_spec e e' : pair_eqb e e' = true <-> e = e'.
Proof. destruct e, e'. unfold pair_eqb. cbn. rewrite Bool.andb_true_iff, !Nat.eqb_eq. split; [intros [-> ->]; auto|intros E; injection E; auto]. Qed.
Definition lt_pair (e e' : nat * nat) : Prop := pair_ltb e e' = true.
Lemma lt_pair_spec e e' : lt_pair e e' <-> fst e < fst e' \/ (fst e = fst e' /\ snd e < snd e').
Proof.
  unfold lt_pair, pair_ltb. destruct (fst e =? fst e') eqn:E; [apply Nat.eqb_eq in E|apply Nat.eqb_neq in E]; rewrite Nat.ltb_lt; lia.
Qed.
Definition count (l : list (nat * nat)) (e : nat * nat) : nat := count_occ edge_dec l e.

(* an ordered map holds the counts of the keys l *)
Record Counts (m : list ((nat * nat) * nat)) (l : list (nat * nat)) : Prop := {
  co_nodup : NoDup (map fst m);
  co_some : forall k c, In (k, c) m -> c = count l k /\ 0 < c;
  co_all : forall k, In k l -> In k (map fst m) }.
Inductive sorted_keys : list ((nat * nat) * nat) -> Prop :=
| sk_nil : sorted_keys []
| sk_cons k c m : (forall k' c', In (k', c') m -> lt_pair k k') -> sorted_keys m -> sorted_keys ((k, c) :: m).
Lemma incr_in e m k c : sorted_keys m -> In (k, c) (incr e m) <->
  (k <> e /\ In (k, c) m) \/ (k = e /\ ((exists c', In (e, c') m /\ c = S c') \/ (~ In e (map fst m) /\ c = 1))).
Proof.
  induction m as [|[k0 c0] m IH]; intros Sm.
  { cbn. split.
    - intros [E|[]]. injection E as <- <-. right. split; auto.
    - intros [[_ []]|[-> [(c' & [] & _)|[_ ->]]]]. auto. }
  inversion Sm as [|? ? ? H Sm' E]; subst. cbn [incr]. destruct (pair_eqb e k0) eqn:E1.
  - apply pair_eqb_spec in E1. subst k0. cbn [In map fst]. split.
    + intros [E|I].
      * injection E as <- <-. right. split; auto. left. exists c0. auto.
      * left. split; [|auto]. intros ->. apply H in I. apply lt_pair_spec in I. lia.
    + intros [[N [E|I]]|[-> [(c' & [E|I] & ->)|[N ->]]]].
      * injection E as -> ->. contradiction.
      * auto.
      * injection E as ->. auto.
      * apply H in I. apply lt_pair_spec in I. lia.
      * destruct N. auto.
  - assert (Ne : e <> k0). { intros ->. assert (pair_eqb k0 k0 = true) by (apply pair_eqb_spec; auto). congruence. }
    destruct (pair_ltb e k0) eqn:E2.
    + assert (Out : ~ In e (map fst ((k0, c0) :: m))).
      { cbn [map fst In]. intros [->|I]; [auto|]. apply in_map_iff in I. destruct I as ([k' c'] & <- & I). apply H in I. apply lt_pair_spec in I. change (lt_pair k' k0) in E2. apply lt_pair_spec in E2. lia. }
      split.
      * intros [E|I]; [injection E as <- <-; auto|]. left. split; auto. intros ->. apply Out. apply in_map_iff. exists (e, c). auto.
      * intros [[N I]|[-> [(c' & I & ->)|[N ->]]]]; [right; auto| |left; auto]. destruct Out. apply in_map_iff. exists (e, c'). auto.
    + cbn [In map fst]. rewrite (IH Sm'). split.
      * intros [E|[[N I]|[-> [(c' & I & ->)|[N ->]]]]]; [injection E as <- <-; left; split; auto|left; split; auto| |].
        -- right. split; auto. left. exists c'. auto.
        -- right. split; auto. right. split; auto. intros [->|I]; auto.
      * intros [[N [E|I]]|[-> [(c' & [E|I] & ->)|[N ->]]]]; auto.
        -- injection E as ->. congruence.
        -- right. right. split; auto. left. eauto.
        -- right. right. split; auto. right. split; auto.
Qed.
Lemma incr_sorted e m : sorted_keys m -> sorted_keys (incr e m).
Proof.
  induction m as [|[k0 c0] m IH]; intros Sm; [constructor; [intros ? ? []|constructor]|].
  inversion Sm as [|? ? ? H Sm' E]; subst. cbn [incr]. destruct (pair_eqb e k0) eqn:E1; [constructor; auto|].
  destruct (pair_ltb e k0) eqn:E2.
  - constructor; auto. intros k' c' [E|I]; [injection E as <- <-; auto|]. apply H in I. change (lt_pair e k0) in E2. rewrite lt_pair_spec in *. lia.
  - constructor; auto. intros k' c' I. apply incr_in in I; auto. destruct I as [[N I]|[-> _]]; [eauto|].
    assert (e <> k0). { intros ->. assert (pair_eqb k0 k0 = true) by (apply pair_eqb_spec; auto). congruence. }
    apply lt_pair_spec. assert (~ lt_pair e k0) by (unfold lt_pair; congruence). rewrite lt_pair_spec in H1. destruct e as [x y], k0 as [z w]. cbn in *.
    assert (x <> z \/ y <> w) by (destruct (Nat.eq_dec x z), (Nat.eq_dec y w); subst; auto). lia.
Qed.
Lemma sorted_nodup m : sorted_keys m -> NoDup (map fst m).
Proof.
  induction 1 as [|k c m H Sm IH]; [constructor|]. cbn. constructor; auto. intros I. apply in_map_iff in I. destruct I as ([k' c'] & E & I). cbn in E. subst.
  apply H in I. apply lt_pair_spec in I. lia.
Qed.
Definition tally (l : list (nat * nat)) (m : list ((nat * nat) * nat)) := fold_left (fun m e => incr e m) l m.
Lemma tally_spec l : sorted_keys (tally l []) /\ forall k c, In (k, c) (tally l []) <-> (c = count l k /\ 0 < c).
Proof.
  induction l as [|e l [IS IH]] using rev_ind.
  { split; [constructor|]. intros k c. cbn. split; [intros []|lia]. }
  unfold tally. rewrite fold_left_app. cbn [fold_left]. fold (tally l []). split; [apply incr_sorted; auto|].
  intros k c. rewrite (incr_in _ _ _ _ IS). unfold count in *. rewrite count_occ_app. cbn [count_occ].
  destruct (edge_dec e k) as [->|N].
  - split.
    + intros [[X _]|[_ [(c' & I & ->)|[N ->]]]]; [contradiction| |].
      * apply IH in I. lia.
      * destruct (count_occ edge_dec l k) eqn:Z; [lia|]. destruct N. apply in_map_iff. exists (k, S n). split; auto. apply IH. lia.
    + intros [-> _]. right. split; auto. destruct (count_occ edge_dec l k) eqn:Z.
      * right. split; [|lia]. intros I. apply in_map_iff in I. destruct I as ([k' c'] & E & I). cbn in E. subst. apply IH in I. lia.
      * left. exists (S n). split; [apply IH|]; lia.
  - rewrite Nat.add_0_r. split.
    + intros [[_ I]|[-> _]]; [apply IH; auto|contradiction].
    + intros H. left. split; [auto|apply IH; auto].
Qed.

(* each unordered edge is counted once or twice; once for the border *)
Lemma count_key l a b : a < b -> (forall x y, In (x, y) l -> x <> y) -> count (map ekey l) (a, b) = count l (a, b) + count l (b, a).
Proof.
  intros L D. unfold count. induction l as [|[x y] l IH]; [reflexivity|]. cbn [map count_occ]. rewrite IH by (intros; apply D; right; auto).
  assert (N : x <> y) by (apply D; left; auto). unfold ekey, flipe. cbn [fst snd].
  destruct (x <? y) eqn:E; [apply Nat.ltb_lt in E|apply Nat.ltb_ge in E];
  repeat match goal with |- context[edge_dec ?p ?q] => destruct (edge_dec p q) end; try lia;
  repeat match goal with H : (_, _) = (_, _) |- _ => injection H as ? ? end; subst; try lia; try congruence.
Qed.
Lemma ekey_lt e : fst e <> snd e -> fst (ekey e) < snd (ekey e).
Proof. unfold ekey, flipe. destruct (fst e <? snd e) eqn:E; [apply Nat.ltb_lt in E|apply Nat.ltb_ge in E]; cbn; lia. Qed.
Lemma nodup_count l e : NoDup l -> count l e = if hase l e then 1 else 0.
Proof.
  intros N. unfold count, hase. destruct (in_dec edge_dec e l) as [I|I].
  - apply NoDup_count_occ'; auto.
  - apply count_occ_not_In; auto.
Qed.

Definition horizon_of (l : list (nat * nat)) : list (nat * nat) := map fst (filter (fun ec => snd ec =? 1) (tally (map ekey l) [])).
Lemma mfold_horizon m acc : (forall k c, In (k, c) m -> c = 1 \/ c = 2) ->
  mfold horizon_step m acc = Ok (acc ++ map fst (filter (fun ec => snd ec =? 1) m)).
Proof.
  revert acc. induction m as [|[k c] m IH]; intros acc H; cbn [mfold filter map]; [rewrite app_nil_r; auto|].
  unfold horizon_step at 1. cbn [fst snd]. destruct (H k c (or_introl eq_refl)) as [-> | ->]; cbn [Nat.eqb orb assert bind].
  - rewrite IH by (intros; eapply H; right; eauto). cbn [map fst]. rewrite <- app_assoc. reflexivity.
  - rewrite IH by (intros; eapply H; right; eauto). reflexivity.
Qed.
Section Horizon.
  Context (l : list (nat * nat)) (N : NoDup l) (D : forall x y, In (x, y) l -> x <> y).
  Lemma key_counts k c : In (k, c) (tally (map ekey l) []) -> (c = 1 \/ c = 2) /\ exists a b, k = (a, b) /\ a < b /\ c = (if hase l (a, b) then 1 else 0) + (if hase l (b, a) then 1 else 0).
  Proof.
    intros I. apply tally_spec in I. destruct I as [-> P]. apply (count_occ_In edge_dec) in P. apply in_map_iff in P.
    destruct P as ([x y] & <- & I). pose proof (D _ _ I) as Ne. pose proof (ekey_lt (x, y) Ne) as L. destruct (ekey (x, y)) as [a b] eqn:E. cbn [fst snd] in L.
    rewrite (count_key l a b L D), !nodup_count by auto.
    assert (P : hase l (a, b) = true \/ hase l (b, a) = true).
    { rewrite !hase_in. unfold ekey, flipe in E. cbn [fst snd] in E. destruct (x <? y); injection E as -> ->; auto. }
    split; [|exists a, b; auto]. destruct (hase l (a, b)), (hase l (b, a)); auto. destruct P; discriminate.
  Qed.
  Lemma horizon_run : mfold horizon_step (tally (map ekey l) []) [] = Ok (horizon_of l).
  Proof. rewrite mfold_horizon; [reflexivity|]. intros k c I. apply key_counts in I. tauto. Qed.
  Lemma ekey_inj e e' : In e (border l) -> In e' (border l) -> ekey e = ekey e' -> e = e'.
  Proof.
    intros I J E. apply border_in in I. apply border_in in J. destruct e as [x y], e' as [z w]. unfold ekey, flipe in *. cbn [fst snd] in *.
    destruct (x <? y), (z <? w); injection E as -> ->; auto; tauto.
  Qed.
  Lemma horizon_perm : Permutation (horizon_of l) (map ekey (border l)).
  Proof.
    apply NoDup_Permutation.
    - unfold horizon_of. destruct (tally_spec (map ekey l)) as [S0 _]. apply sorted_nodup in S0.
      revert S0. generalize (tally (map ekey l) []). induction l0 as [|[k c] m IH]; [constructor|]. cbn [map filter fst snd]. intros H. inversion H; subst.
      destruct (c =? 1); [|auto]. cbn. constructor; auto. intros I. apply H2. apply in_map_iff in I. destruct I as (x & <- & I). apply filter_In in I. apply in_map. tauto.
    - assert (G : forall m, NoDup m -> (forall e, In e m -> In e (border l)) -> NoDup (map ekey m)).
      { induction m as [|e m IH]; intros Nm Hm; cbn; constructor; inversion Nm; subst.
        - intros I. apply in_map_iff in I. destruct I as (e' & E & I). apply ekey_inj in E; [subst; auto|apply Hm; right; auto|apply Hm; left; auto].
        - apply IH; auto. intros; apply Hm; right; auto. }
      apply G; auto. apply border_nodup; auto.
    - intros k. unfold horizon_of. rewrite !in_map_iff. split.
      + intros ([k' c] & E & I). cbn in E. subst k'. apply filter_In in I. destruct I as [I C]. apply Nat.eqb_eq in C. cbn in C. subst c.
        apply key_counts in I. destruct I as (_ & a & b & -> & L & E).
        destruct (hase l (a, b)) eqn:E1, (hase l (b, a)) eqn:E2; try discriminate.
        * exists (a, b). split; [unfold ekey; cbn [fst snd]; apply Nat.ltb_lt in L; rewrite L; auto|]. apply border_in. cbn. rewrite <- hase_in, <- hase_out. auto.
        * exists (b, a). split; [unfold ekey, flipe; cbn [fst snd]; destruct (b <? a) eqn:X; [apply Nat.ltb_lt in X; lia|auto]|]. apply border_in. cbn. rewrite <- hase_in, <- hase_out. auto.
      + intros ([x y] & <- & I). apply border_in in I. destruct I as [I J]. cbn in J. pose proof (D _ _ I) as Ne. pose proof (ekey_lt (x, y) Ne) as L.
        exists (ekey (x, y), 1). split; auto. apply filter_In. split; auto. apply tally_spec. split; [|lia].
        apply hase_in in I. apply hase_out in J. cbn in L.
        destruct (ekey (x, y)) as [a b] eqn:E. cbn [fst snd] in L. rewrite (count_key l a b L D), !nodup_count by auto.
        unfold ekey, flipe in E. cbn [fst snd] in E. destruct (x <? y); injection E as <- <-; change (flipe (x, y)) with (y, x) in J; rewrite I, J; auto.
  Qed.
End Horizon.
