(* Proofs about simplifying the surface of a solid: gluing facets together. *)
From Coq Require Import QArith Permutation.
From Verif Require Import Base BaseFacts Plane PLCSpec Simp3Model Simp3Spec Simp3Proofs.
Local Open Scope nat_scope.

Lemma memb_in n l : memb n l = true <-> In n l.
Proof. unfold memb. rewrite existsb_exists. split; [intros (x & I & E); apply Nat.eqb_eq in E; subst; auto|intros I; exists n; split; auto; apply Nat.eqb_refl]. Qed.
Lemma facets_at_in ims n g : In g (facets_at ims n) <-> g < length ims /\ In n (nth g ims []).
Proof. unfold facets_at. rewrite filter_In, in_seq, memb_in. split; intros [A B]; split; auto; lia. Qed.

Section Glue.
Context (tol : Q) (normals : list (option p3)) (ims : list (list nat)) (i : nat) (ni : p3) (used0 : list bool).
Context (Ln : length normals = length ims) (Lu : length used0 = length ims).
Context (Ui : nth_error used0 i = Some false).
(* facets joined to i through common nodes *)
Inductive link (G : list nat) : nat -> Prop :=
| link_self : link G i
| link_next g h n : link G g -> In h G -> In n (nth g ims []) -> In n (nth h ims []) -> link G h.
Lemma link_more G G' g : incl G G' -> link G g -> link G' g.
Proof. intros S L. induction L; [constructor|]. eapply link_next; eauto. Qed.

Record ginv (st : gstate) : Prop := {
  g_len : length (fst (fst st)) = length ims;
  g_used : forall g, nth_error (fst (fst st)) g = Some true <-> nth_error used0 g = Some true \/ In g (snd (fst st));
  g_in : In i (snd (fst st));
  g_nodup : NoDup (snd (fst st));
  g_new : forall g, In g (snd (fst st)) -> nth_error used0 g = Some false /\ (g = i \/ exists m, nth_error normals g = Some (Some m) /\ Facing tol ni m);
  g_nodes : forall n, In n (snd st) <-> exists g, In g (snd (fst st)) /\ In n (nth g ims []);
  g_link : forall g, In g (snd (fst st)) -> link (snd (fst st)) g }.

Lemma upd_true (l : list bool) g h : h < length l -> nth_error (upd l h true) g = Some true <-> nth_error l g = Some true \/ g = h.
Proof.
  intros L. destruct (Nat.eq_dec h g) as [->|N]; [rewrite upd_same by auto; tauto|]. rewrite upd_other by auto. split; auto. intros [A|A]; auto. congruence.
Qed.
(* one facet: g becomes used if it can be glued *)
Lemma glue_facet_ok st n g st' : ginv st -> In n (snd st) -> In n (nth g ims []) -> g < length ims -> glue_facet tol normals ims i ni st g = Ok st' ->
  ginv st' /\ incl (snd (fst st)) (snd (fst st')) /\ (forall m, nth_error normals g = Some (Some m) -> Facing tol ni m -> nth_error (fst (fst st')) g = Some true).
Proof.
  destruct st as [[used G] nodes]. intros I Nn Ng Lg H. unfold glue_facet in H. apply bind_ok in H as (u & U & H). apply get_ok in U.
  assert (Same : (g = i \/ u = true \/ (forall m, nth_error normals g = Some (Some m) -> ~ Facing tol ni m)) -> Ok (used, G, nodes) = Ok st' ->
     ginv st' /\ incl G (snd (fst st')) /\ (forall m, nth_error normals g = Some (Some m) -> Facing tol ni m -> nth_error (fst (fst st')) g = Some true)).
  { intros C E. inversion E; subst st'. split; auto. split; [apply incl_refl|]. cbn [fst snd]. intros m M F. destruct C as [->|[->|C]]; auto.
    - apply (g_used _ I). right. apply (g_in _ I).
    - exfalso. eapply C; eauto. }
  destruct (Nat.eqb_spec g i) as [->|Ni]; cbn [negb andb] in H; [apply Same; auto|]. destruct u; cbn [negb andb] in H; [apply Same; auto|].
  apply bind_ok in H as (ng & M & H). apply get_ok in M. destruct ng as [m|].
  2:{ apply Same; auto. right; right. intros m' M'. congruence. }
  destruct (facingb tol ni m) eqn:F.
  2:{ apply Same; auto. right; right. intros m' M' F'. apply facing_iff in F'. congruence. }
  clear Same. apply facing_iff in F. apply bind_ok in H as (used' & S & H). apply set_ok in S. destruct S as [S ->]. apply bind_ok in H as (im & E & H). apply get_ok in E. inversion H; subst st'. clear H.
  assert (Eim : nth g ims [] = im) by (apply nth_error_nth; auto). cbn [fst snd].
  assert (U0 : nth_error used0 g = Some false).
  { destruct (nth_error_ex used0 g) as [b B]; [rewrite Lu; auto|]. destruct b; auto. assert (nth_error used g = Some true) by (apply (g_used _ I); auto). cbn in *. congruence. }
  assert (NG : ~ In g G). { intros X. assert (nth_error used g = Some true) by (apply (g_used _ I); auto). congruence. }
  split; [|split; [intros x X; apply in_or_app; auto|intros; apply upd_true; auto]].
  constructor; cbn [fst snd].
  - rewrite upd_length. apply (g_len _ I).
  - intros h. rewrite upd_true by auto. rewrite in_app_iff. cbn [In]. pose proof (g_used _ I h). cbn in H. intuition congruence.
  - apply in_or_app. left. apply (g_in _ I).
  - apply NoDup_app_comm_cons || idtac. pose proof (g_nodup _ I). cbn in H. apply (Permutation_NoDup (l := g :: G)); [|constructor; auto]. apply Permutation_cons_append.
  - intros h X. apply in_app_or in X. destruct X as [X|[<-|[]]]; [apply (g_new _ I h X)|]. split; auto. right. eauto.
  - intros k. rewrite in_app_iff, (g_nodes _ I k). cbn [fst snd]. split.
    + intros [(h & A & B)|A]; [exists h; split; auto; apply in_or_app; auto|]. exists g. split; [apply in_or_app; right; left; auto|]. rewrite Eim. auto.
    + intros (h & A & B). apply in_app_or in A. destruct A as [A|[<-|[]]]; [left; eauto|]. right. rewrite <- Eim. auto.
  - intros h X. apply in_app_or in X. destruct X as [X|[<-|[]]].
    + apply (link_more G); [intros y Y; apply in_or_app; auto|]. apply (g_link _ I h X).
    + apply (g_nodes _ I) in Nn. destruct Nn as (h & A & B). cbn [fst snd] in A. apply (link_next _ h g n); auto.
      * apply (link_more G); [intros y Y; apply in_or_app; auto|]. apply (g_link _ I h A).
      * apply in_or_app. right. left. auto.
Qed.
(* used flags stay *)
Lemma ginv_used st st' g : ginv st -> ginv st' -> incl (snd (fst st)) (snd (fst st')) -> nth_error (fst (fst st)) g = Some true -> nth_error (fst (fst st')) g = Some true.
Proof. intros I I' S U. apply (g_used _ I'). apply (g_used _ I) in U. destruct U; auto. Qed.
Lemma glue_node_ok n l : forall st st', (forall g, In g l -> g < length ims /\ In n (nth g ims [])) -> ginv st -> In n (snd st) -> mfold (glue_facet tol normals ims i ni) l st = Ok st' ->
  ginv st' /\ incl (snd (fst st)) (snd (fst st')) /\ (forall g m, In g l -> nth_error normals g = Some (Some m) -> Facing tol ni m -> nth_error (fst (fst st')) g = Some true).
Proof.
  induction l as [|g l IH]; intros st st' Hl I Nn H; cbn [mfold] in H; [inversion H; subst; split; auto; split; [apply incl_refl|intros g m []]|].
  apply bind_ok in H as (st1 & H1 & H). destruct (Hl g (or_introl eq_refl)) as [Lg Ng]. destruct (glue_facet_ok st n g st1 I Nn Ng Lg H1) as (I1 & S1 & U1).
  destruct (IH st1 st' (fun g X => Hl g (or_intror X)) I1) as (I2 & S2 & U2); auto.
  { apply (g_nodes _ I1). apply (g_nodes _ I) in Nn. destruct Nn as (h & A & B). exists h. auto. }
  split; auto. split; [eapply incl_tran; eauto|]. intros h m [<-|X] M F; [|eauto]. apply (ginv_used st1 st'); auto. eauto.
Qed.
Theorem glue_ok nnodes st : (forall g n, g < length ims -> In n (nth g ims []) -> n < nnodes) -> glue tol normals ims nnodes i ni used0 = Ok st ->
  ginv st /\ forall g m n, g < length ims -> In n (nth i ims []) -> In n (nth g ims []) -> nth_error normals g = Some (Some m) -> Facing tol ni m -> nth_error (fst (fst st)) g = Some true.
Proof.
  intros Hn H. unfold glue in H. apply bind_ok in H as (used & S & H). apply set_ok in S. destruct S as [S ->]. apply bind_ok in H as (im & E & H). apply get_ok in E.
  assert (Eim : nth i ims [] = im) by (apply nth_error_nth; auto).
  assert (I0 : ginv (upd used0 i true, [i], im)).
  { constructor; cbn [fst snd].
    - rewrite upd_length. auto.
    - intros g. rewrite upd_true by auto. cbn [In]. intuition.
    - left; auto.
    - repeat constructor. intros [].
    - intros g [<-|[]]. auto.
    - intros n. split; [intros X; exists i; rewrite Eim; split; auto; left; auto|intros (g & [<-|[]] & X); rewrite Eim in X; auto].
    - intros g [<-|[]]. constructor. }
  set (body := fun (st : gstate) n => let '(_, _, nodes) := st in if memb n nodes then mfold (glue_facet tol normals ims i ni) (facets_at ims n) st else Ok st) in *.
  assert (G : forall l st0, ginv st0 -> mfold body l st0 = Ok st -> ginv st /\ incl (snd (fst st0)) (snd (fst st)) /\
     forall g m n, In n l -> g < length ims -> In n (nth i ims []) -> In n (nth g ims []) -> nth_error normals g = Some (Some m) -> Facing tol ni m -> nth_error (fst (fst st)) g = Some true).
  { induction l as [|n l IH]; intros st0 I M; cbn [mfold] in M; [inversion M; subst; split; auto; split; [apply incl_refl|intros g m n []]|].
    apply bind_ok in M as (st1 & M1 & M). destruct st0 as [[u G0] nodes]. cbn [body] in M1. unfold body in M1. destruct (memb n nodes) eqn:Mb.
    - apply memb_in in Mb. destruct (glue_node_ok n (facets_at ims n) (u, G0, nodes) st1) as (I1 & S1 & U1); auto; [intros g X; apply facets_at_in in X; auto|].
      destruct (IH st1 I1 M) as (I2 & S2 & U2). split; auto. split; [eapply incl_tran; eauto|]. intros g m k [<-|X] Lg Xi Xg Mg F; [|eauto]. apply (ginv_used st1 st); auto. apply (U1 g m); auto. apply facets_at_in. auto.
    - inversion M1; subst st1. destruct (IH _ I M) as (I2 & S2 & U2). split; auto. split; auto. intros g m k [<-|X] Lg Xi Xg Mg F; [|eauto]. exfalso.
      assert (memb n nodes = true); [|congruence]. apply memb_in. apply (g_nodes _ I). exists i. split; auto. apply (g_in _ I). }
  destruct (G _ _ I0 H) as (I & _ & U). split; auto. intros g m n Lg Xi Xg. apply (U g m n); auto. apply in_seq. split; [lia|]. cbn. eapply Hn; eauto.
Qed.
End Glue.
