(* Lemmas for CutProps.v: the linked list. *)
From Verif Require Import Base BaseFacts Plane PLCSpec MeshEditorModel CutModel CutSpec.
From Coq Require Import QArith Lqa.
Local Open Scope nat_scope.

Lemma poke_same {A} m i (a : option A) : poke m i a i = a.
Proof. unfold poke. rewrite Nat.eqb_refl. auto. Qed.
Lemma poke_other {A} m i (a : option A) j : j <> i -> poke m i a j = m j.
Proof. intros H. unfold poke. rewrite (proj2 (Nat.eqb_neq j i)); auto. Qed.
Lemma path_app nx pv l1 a l2 : Path nx pv (l1 ++ a :: l2) <-> Path nx pv (l1 ++ [a]) /\ Path nx pv (a :: l2).
Proof.
  induction l1 as [|x l1 IH]; [cbn; tauto|]. destruct l1 as [|y l1].
  - cbn [app]. change (Path nx pv (x :: a :: l2)) with (nx x = Some a /\ pv a = Some x /\ Path nx pv (a :: l2)). cbn [Path]. tauto.
  - change ((x :: y :: l1) ++ a :: l2) with (x :: y :: (l1 ++ a :: l2)). change ((x :: y :: l1) ++ [a]) with (x :: y :: (l1 ++ [a])).
    change (Path nx pv (x :: y :: l1 ++ a :: l2)) with (nx x = Some y /\ pv y = Some x /\ Path nx pv ((y :: l1) ++ a :: l2)).
    change (Path nx pv (x :: y :: l1 ++ [a])) with (nx x = Some y /\ pv y = Some x /\ Path nx pv ((y :: l1) ++ [a])). tauto.
Qed.
Lemma path_frame nx pv nx' pv' l : (forall i, In i (removelast l) -> nx' i = nx i) -> (forall i, In i (tl l) -> pv' i = pv i) -> Path nx pv l -> Path nx' pv' l.
Proof.
  induction l as [|a l IH]; auto. destruct l as [|b l]; auto. intros N P (A & B & C).
  change (Path nx' pv' (a :: b :: l)) with (nx' a = Some b /\ pv' b = Some a /\ Path nx' pv' (b :: l)). split; [rewrite N; auto; left; auto|]. split; [rewrite P; auto; left; auto|].
  apply IH; auto; intros i H; [apply N|apply P]; right; auto.
Qed.
Definition Round nx pv (c : list nat) := Path nx pv (c ++ firstn 1 c).
Lemma round_turn nx pv a b : Round nx pv (a ++ b) -> Round nx pv (b ++ a).
Proof.
  unfold Round. destruct a as [|x a]; [rewrite app_nil_r; auto|]. destruct b as [|y b]; [rewrite !app_nil_r; auto|]. cbn [app firstn]. intros H.
  assert (H' : Path nx pv ((x :: a) ++ y :: (b ++ [x]))) by (cbn [app]; rewrite <- app_assoc in H; exact H). apply path_app in H'. destruct H' as [H1 H2].
  rewrite <- app_assoc. change (y :: b ++ (x :: a) ++ [y]) with ((y :: b) ++ x :: (a ++ [y])). apply path_app. split; auto.
Qed.
(* relabel the first corner *)
Lemma round_move nx pv p up d : d <> [] -> NoDup (p :: d) -> ~ In up d -> up <> p -> Round nx pv (p :: d) ->
  exists n m, nx p = Some n /\ pv p = Some m /\ In n d /\ In m d /\ Round (poke (poke nx m (Some up)) up (Some n)) (poke (poke pv n (Some up)) up (Some m)) (up :: d).
Proof.
  intros NE ND U UP R. destruct d as [|n d0]; [congruence|]. destruct (exists_last NE) as (dm & m & Ed). unfold Round in R. cbn [firstn] in R.
  assert (R1 : nx p = Some n /\ pv n = Some p /\ Path nx pv ((n :: d0) ++ [p])) by exact R. destruct R1 as (A & B & C).
  rewrite Ed, <- app_assoc in C. change ([m] ++ [p]) with (m :: [p]) in C. apply path_app in C. destruct C as (C & D & E & _). rewrite <- Ed in C.
  assert (Im : In m (n :: d0)) by (rewrite Ed; apply in_or_app; right; left; auto).
  exists n, m. split; auto. split; auto. split; [left; auto|]. split; auto.
  unfold Round. cbn [firstn]. set (nx' := poke _ _ _). set (pv' := poke (poke pv n _) _ _).
  change (nx' up = Some n /\ pv' n = Some up /\ Path nx' pv' ((n :: d0) ++ [up])).
  assert (Nup : n <> up) by (intros K; apply U; left; auto). assert (Mup : m <> up) by (intros K; apply U; subst; auto).
  split; [apply poke_same|]. split; [unfold pv'; rewrite poke_other, poke_same; auto|].
  rewrite Ed, <- app_assoc. change ([m] ++ [up]) with (m :: [up]). apply path_app. inversion ND as [|? ? Pn ND']; subst. split.
  - rewrite <- Ed. revert C. apply path_frame.
    + intros i Hi. rewrite Ed, removelast_last in Hi. unfold nx'. assert (i <> m). { intros ->. rewrite Ed in ND'. apply NoDup_remove_2 in ND'. apply ND'. rewrite app_nil_r. auto. } assert (i <> up). { intros ->. apply U. rewrite Ed. apply in_or_app; auto. } rewrite !poke_other; auto.
    + intros i Hi. cbn [tl] in Hi. unfold pv'. assert (i <> n) by (intros ->; inversion ND'; auto). assert (i <> up) by (intros ->; apply U; right; auto). rewrite !poke_other; auto.
  - cbn [Path]. split; [unfold nx'; rewrite poke_other, poke_same; auto|]. split; [|exact I]. unfold pv'. apply poke_same.
Qed.

Definition Held (s : vcell) (c : list nat) (vs : list corner) := Forall2 (fun i v => vx s i = Some v) c vs.
Record Filling (s : vcell) (c : list nat) (vs : list corner) (stk : list nat) : Prop := mkFill {
  fl_nd : NoDup c; fl_two : 2 <= length c; fl_lt : forall i, In i c -> i < vp s;
  fl_all : forall i, i < vp s -> In i c \/ In i stk;
  fl_stk : NoDup stk; fl_out : forall i, In i stk -> ~ In i c;
  fl_none : forall i, In i stk -> vnext s i = None;
  fl_round : Round (vnext s) (vprev s) c; fl_held : Held s c vs }.
Lemma last_live_ok s n : (exists i, i < n /\ vnext s i <> None) -> exists p, last_live s n = Ok p /\ p < n /\ vnext s p <> None /\ forall i, p < i < n -> vnext s i = None.
Proof.
  induction n as [|n IH]; intros (i & L & V); [lia|]. cbn [last_live]. destruct (vnext s n) eqn:E.
  - exists n. repeat split; auto; [congruence|]. intros; lia.
  - destruct IH as (p & A & B & C & D). { exists i. split; auto. assert (i <> n) by congruence. lia. } exists p. repeat split; auto. intros j Hj. destruct (Nat.eq_dec j n); [subst; auto|apply D; lia].
Qed.
Lemma round_live nx pv c i : Round nx pv c -> In i c -> nx i <> None.
Proof.
  intros R H. apply in_split in H. destruct H as (a & b & ->). apply round_turn in R. unfold Round in R. cbn [app firstn] in R. destruct (b ++ a) as [|y l]; destruct R as [R _]; cbn in R; congruence.
Qed.
Lemma held_nth s a p b vs : Held s (a ++ p :: b) vs -> exists v, vx s p = Some v.
Proof. intros H. apply Forall2_app_inv_l in H. destruct H as (v1 & v2 & _ & H & _). inversion H; subst; eauto. Qed.
Lemma fill_ok s c vs up stk : Filling s c vs (up :: stk) -> exists s' c', fill s up = Ok s' /\ Filling s' c' vs stk.
Proof.
  intros [ND TW LT AL SN OU NO RO HE].
  destruct (last_live_ok s (vp s)) as (p & E & Lp & Vp & Hp). { destruct c as [|i c]; [cbn in TW; lia|]. exists i. split; [apply LT; left; auto|]. apply (round_live _ _ _ _ RO). left; auto. }
  assert (Pc : In p c). { destruct (AL p Lp) as [H|H]; auto. exfalso. apply Vp, NO; auto. }
  assert (Cle : forall i, In i c -> i <= p). { intros i H. destruct (Nat.le_gt_cases i p); auto. exfalso. apply (round_live _ _ _ _ RO H), Hp. split; auto. }
  assert (Uc : ~ In up c) by (apply OU; left; auto). inversion SN as [|? ? US SN']; subst.
  unfold fill. rewrite E. cbn [bind]. destruct (up <? p) eqn:Cm; [apply Nat.ltb_lt in Cm|apply Nat.ltb_ge in Cm].
  - destruct (in_split _ _ Pc) as (a & b & Ec). subst c. assert (ND' : NoDup (p :: b ++ a)) by (constructor; [intros K; apply NoDup_remove_2 in ND; apply ND; apply in_app_or in K; apply in_or_app; tauto|apply (Permutation.Permutation_NoDup (Permutation.Permutation_app_comm a b)), (NoDup_remove_1 _ _ _ ND)]).
    assert (NE : b ++ a <> []) by (intros K; apply app_eq_nil in K; destruct K; subst; cbn in TW; lia).
    assert (Ub : ~ In up (b ++ a)) by (intros K; apply Uc; apply in_app_or in K; apply in_or_app; cbn; tauto).
    pose proof (round_turn _ _ a (p :: b) RO) as RO'. cbn [app] in RO'.
    destruct (round_move _ _ p up (b ++ a) NE ND' Ub ltac:(lia) RO') as (n & m & An & Am & In_ & Im & RN).
    assert (np : p <> n) by (intros K; subst n; inversion ND'; auto). assert (mp : p <> m) by (intros K; subst m; inversion ND'; auto).
    destruct (held_nth _ _ _ _ _ HE) as (v & Ev).
    unfold peek. rewrite An. cbn [bind]. rewrite (poke_other _ n _ p np), Am. cbn [bind]. rewrite Ev. cbn [bind]. rewrite (poke_other _ m _ p mp), An. cbn [bind].
    eexists _, (a ++ up :: b). split; [reflexivity|]. constructor; cbn [vp vx vnext vprev].
    + apply (Permutation.Permutation_NoDup (Permutation.Permutation_middle a b up)). constructor; [intros K; apply Uc; apply in_app_or in K; apply in_or_app; cbn; tauto|apply (NoDup_remove_1 _ _ _ ND)].
    + rewrite app_length in *. cbn [length] in *. lia.
    + intros i H. apply in_app_or in H. cbn in H. destruct H as [H|[H|H]]; [| |]; try (subst; lia); assert (i <= p) by (apply Cle, in_or_app; cbn; tauto); assert (i <> p) by (intros ->; inversion ND'; subst; match goal with K : ~ In p _ |- _ => apply K, in_or_app; tauto end); lia.
    + intros i H. destruct (AL i ltac:(lia)) as [K|[K|K]]; auto.
      * left. apply in_app_or in K. cbn in K. apply in_or_app. cbn. destruct K as [K|[K|K]]; auto; lia.
      * left. subst. apply in_or_app. right. left. auto.
    + auto.
    + intros i H K. apply in_app_or in K. cbn in K. destruct K as [K|[K|K]]; [| subst; auto|]; apply (OU i (or_intror H)), in_or_app; cbn; tauto.
    + intros i H. assert (i <> up) by (intros ->; auto). assert (i <> m). { intros ->. apply (OU m (or_intror H)), in_or_app. apply in_app_or in Im. cbn. tauto. } rewrite !poke_other; auto. apply NO. right; auto.
    + apply (round_turn _ _ (up :: b) a). exact RN.
    + unfold Held in *. apply Forall2_app_inv_l in HE. destruct HE as (v1 & v2 & H1 & H2 & ->). apply Forall2_app.
      * clear -H1 Uc. cbn [vx]. induction H1 as [|i w a v1 A H IH]; constructor; [|apply IH; cbn in Uc; tauto]. rewrite poke_other; auto. intros ->. apply Uc. left; auto.
      * inversion H2 as [|? w ? v2' Ew H3]; subst. assert (w = v) by congruence. subst w. constructor; [apply poke_same|]. assert (Ub' : ~ In up b) by (intros K; apply Uc, in_or_app; right; right; auto). clear -H3 Ub'. cbn [vx]. induction H3 as [|i w a v1 A H IH]; constructor; [|apply IH; cbn in Ub'; tauto]. rewrite poke_other; auto. intros ->. apply Ub'. left; auto.
  - eexists _, c. split; [reflexivity|]. constructor; cbn [vp vx vnext vprev]; auto.
    + intros i H. specialize (Cle i H). lia.
    + intros i H. destruct (AL i ltac:(lia)) as [K|[K|K]]; auto. subst i. left. assert (up = p) by lia. subst; auto.
    + intros i H. apply OU. right; auto.
    + intros i H. apply NO. right; auto.
Qed.
Lemma fills_ok stk s c vs : Filling s c vs stk -> exists s', mfold fill stk s = Ok s' /\ CellOf s' vs.
Proof.
  revert s c. induction stk as [|up stk IH]; intros s c F.
  - exists s. split; auto. exists c. destruct F as [ND TW LT AL SN OU NO RO HE]. split; auto. split; [|split; auto]. intros i. split; auto. intros H. destruct (AL i H) as [K|[]]; auto.
  - destruct (fill_ok _ _ _ _ _ F) as (s1 & c1 & E & F1). destruct (IH _ _ F1) as (s2 & E2 & C). exists s2. split; auto. cbn [mfold]. rewrite E. cbn [bind]. auto.
Qed.
Lemma marked (nx : nat -> option nat) stk i : fold_left (fun nx i => poke nx i None) stk nx i = if existsb (Nat.eqb i) stk then None else nx i.
Proof.
  revert nx. induction stk as [|a stk IH]; intros nx; auto. cbn [fold_left existsb]. rewrite IH. unfold poke. destruct (existsb (Nat.eqb i) stk); [rewrite orb_true_r; auto|]. rewrite orb_false_r. auto.
Qed.
Lemma drop_ok s stk c vs : NoDup c -> 2 <= length c -> NoDup stk -> (forall i, In i stk -> ~ In i c) -> (forall i, i < vp s <-> In i c \/ In i stk) ->
  Round (vnext s) (vprev s) c -> Held s c vs -> exists s', drop s stk = Ok s' /\ CellOf s' vs.
Proof.
  intros ND TW NS OU AL RO HE. unfold drop. apply (fills_ok _ _ c). constructor; cbn [vp vx vnext vprev]; auto.
  - intros i H. apply AL; auto.
  - intros i H. apply AL in H. rewrite <- in_rev. auto.
  - apply NoDup_rev; auto.
  - intros i H. apply OU, in_rev, H.
  - intros i H. rewrite marked. rewrite <- in_rev in H. assert (E : existsb (Nat.eqb i) stk = true) by (apply existsb_exists; exists i; split; auto; apply Nat.eqb_refl). rewrite E. auto.
  - revert RO. unfold Round. apply path_frame; auto. intros i H. rewrite marked. assert (E : existsb (Nat.eqb i) stk = false).
    { apply not_true_iff_false. intros K. apply existsb_exists in K. destruct K as (j & J & K). apply Nat.eqb_eq in K. subst j. apply (OU i J). destruct c as [|x c]; [destruct H|]. cbn [firstn] in H. rewrite removelast_last in H. auto. }
    rewrite E. auto.
Qed.
