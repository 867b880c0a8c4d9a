From Verif Require Import Base BaseFacts StdAlg Plane MeshEditorModel HullModel.
From Coq Require Import QArith ZArith Sorted Permutation Lia.
Local Open Scope Z_scope.

(* ---- vectors in the right half plane ---- *)
Notation zp := (Z * Z)%type.
Definition cr (u v : zp) : Z := fst u * snd v - snd u * fst v.
Definition vs (a b : zp) : zp := (fst b - fst a, snd b - snd a).
Definition lpos (u : zp) : Prop := 0 < fst u \/ (fst u = 0 /\ 0 < snd u).
Definition lnn (u : zp) : Prop := 0 < fst u \/ (fst u = 0 /\ 0 <= snd u).
Lemma zc a b c : zcross a b c = cr (vs a b) (vs b c).
Proof. unfold zcross, cr, vs. cbn. ring. Qed.
Lemma lpos_nn u : lpos u -> lnn u.
Proof. unfold lpos, lnn. lia. Qed.
Lemma lnn_cases u : lnn u -> lpos u \/ u = (0, 0).
Proof. destruct u as [x y]. unfold lpos, lnn. cbn. intros [H|[H1 H2]]; auto. destruct (Z.eq_dec y 0) as [->|N]; [right; congruence|left; right; lia]. Qed.
(* the scalar of a multiple of a vector of the half plane *)
Lemma scal_pos v s x y : lpos v -> s * fst v = x -> s * snd v = y -> lpos (x, y) -> 0 < s.
Proof.
  unfold lpos. cbn. intros V <- <- H. destruct (Z.eq_dec s 0) as [->|N]; [lia|]. destruct (Z.lt_ge_cases 0 s); auto. exfalso.
  destruct V as [V|[V V']], H as [H|[H H']]; nia.
Qed.
Lemma scal_nn v s x y : lpos v -> s * fst v = x -> s * snd v = y -> lnn (x, y) -> 0 <= s.
Proof.
  unfold lpos, lnn. cbn. intros V <- <- H. destruct (Z.lt_ge_cases s 0); auto. exfalso.
  destruct V as [V|[V V']], H as [H|[H H']]; nia.
Qed.
Lemma comb_lpos a b u v : 0 <= a -> 0 < b -> lnn u -> lpos v -> lpos (a * fst u + b * fst v, a * snd u + b * snd v).
Proof. unfold lpos, lnn. cbn. intros A B [U|[U U']] [V|[V V']]; try (left; nia). destruct (Z.eq_dec a 0) as [->|]; [right; nia|left; nia]. right. split; nia. Qed.
Lemma comb_lnn a b u v : 0 <= a -> 0 <= b -> lnn u -> lnn v -> lnn (a * fst u + b * fst v, a * snd u + b * snd v).
Proof.
  intros A B U V. destruct (lnn_cases v V) as [P| ->].
  - destruct (Z.eq_dec b 0) as [->|]; [|apply lpos_nn, comb_lpos; auto; lia].
    unfold lnn in *. cbn in *. destruct U as [U|[U U']]; destruct (Z.eq_dec a 0) as [->|]; try (right; nia); try (left; nia).
  - unfold lnn in *. cbn. destruct U as [U|[U U']]; destruct (Z.eq_dec a 0) as [->|]; try (right; nia); try (left; nia).
Qed.
Lemma cr_trans u v w : lpos v -> lpos u -> lpos w -> 0 < cr u v -> 0 < cr v w -> 0 < cr u w.
Proof.
  intros V U W A B. eapply (scal_pos v (cr u w) (cr v w * fst u + cr u v * fst w) (cr v w * snd u + cr u v * snd w) V); try (unfold cr; ring).
  apply comb_lpos; auto; try lia. apply lpos_nn; auto.
Qed.
Lemma cr_trans_le u v w : lpos v -> lnn u -> lnn w -> 0 <= cr u v -> 0 <= cr v w -> 0 <= cr u w.
Proof.
  intros V U W A B. eapply (scal_nn v (cr u w) (cr v w * fst u + cr u v * fst w) (cr v w * snd u + cr u v * snd w) V); try (unfold cr; ring).
  apply comb_lnn; auto.
Qed.
Definition lexle (a b : zp) : Prop := lnn (vs a b).
Definition lexlt (a b : zp) : Prop := lpos (vs a b).
Lemma lexle_trans a b c : lexle a b -> lexle b c -> lexle a c.
Proof. unfold lexle, lnn, vs. cbn. lia. Qed.
Lemma lexlt_le a b c : lexlt a b -> lexle b c -> lexlt a c.
Proof. unfold lexle, lexlt, lnn, lpos, vs. cbn. lia. Qed.
Lemma lexle_lt a b c : lexle a b -> lexlt b c -> lexlt a c.
Proof. unfold lexle, lexlt, lnn, lpos, vs. cbn. lia. Qed.
Lemma lexlt_irr a : ~ lexlt a a.
Proof. unfold lexlt, lpos, vs. cbn. lia. Qed.
Lemma lexle_cases a b : lexle a b -> lexlt a b \/ a = b.
Proof. intros H. destruct (lnn_cases _ H) as [P|E]; auto. right. unfold vs in E. destruct a as [ax ay], b as [bx by_]. cbn in E. injection E as E1 E2. f_equal; lia. Qed.
Lemma lexle_refl a : lexle a a.
Proof. unfold lexle, lnn, vs. cbn. lia. Qed.

(* turning at increasing points *)
Lemma turn_far a b c d : lexlt a b -> lexlt b c -> lexlt c d -> 0 < zcross a b c -> 0 < zcross b c d -> 0 < zcross a c d /\ 0 < zcross a b d.
Proof.
  intros A B C X Y. rewrite !zc in *. pose proof (cr_trans (vs a b) (vs b c) (vs c d) B A C X Y) as T. unfold cr, vs in *. cbn in *. split; lia.
Qed.

(* ---- the stack of one chain ---- *)
Fixpoint tri_ok (st : list zp) : Prop :=
  match st with [] => True | p :: t => ForallOrdPairs (fun v u => 0 < zcross u v p) t /\ tri_ok t end.
Definition dec (st : list zp) : Prop := StronglySorted (fun v u => lexlt u v) st.
Definition adj (st : list zp) (u v : zp) : Prop := exists l1 l2, st = l1 ++ v :: u :: l2.
(* all of done lie on or left of the edges of the stack *)
Definition left_ok (st : list zp) (done : list zp) : Prop := forall u v q, adj st u v -> In q done -> 0 <= zcross u v q.

Definition Good (st done : list zp) : Prop :=
  dec st /\ tri_ok st /\ left_ok st done /\
  (exists l b, st = l ++ [b] /\ In b done /\ (forall q, In q done -> lexle b q) /\ (l = [] -> forall q, In q done -> q = b)) /\
  (exists t l, st = t :: l /\ forall q, In q done -> lexle q t) /\ incl st done.
Definition Stuck (st done : list zp) : Prop := exists a, st = [a; a] /\ (forall q, In q done -> q = a) /\ In a done.

(* pops on positions *)
Fixpoint zpops (st : list zp) (p : zp) : list zp :=
  match st with
  | a :: ((b :: _) as st') => if zcross b a p <=? 0 then zpops st' p else st
  | _ => st
  end.
Lemma zpops_suffix st p : exists l, st = l ++ zpops st p.
Proof.
  induction st as [|a [|b st] IH]; [exists []; auto|exists []; auto|]. cbn [zpops]. destruct (zcross b a p <=? 0); [|exists []; auto].
  destruct IH as [l E]. exists (a :: l). cbn. f_equal. exact E.
Qed.
Lemma zpops_nil st p : st <> [] -> zpops st p <> [].
Proof. induction st as [|a [|b st] IH]; intros N; [contradiction|discriminate|]. cbn [zpops]. destruct (zcross b a p <=? 0); [apply IH; discriminate|discriminate]. Qed.
Lemma tri_suffix l st : tri_ok (l ++ st) -> tri_ok st.
Proof. induction l as [|a l IH]; cbn; auto. intros [_ H]. auto. Qed.
Lemma dec_suffix l st : dec (l ++ st) -> dec st.
Proof. induction l as [|a l IH]; cbn; auto. intros H. inversion H; auto. Qed.
Lemma adj_suffix l st u v : adj st u v -> adj (l ++ st) u v.
Proof. intros (l1 & l2 & ->). exists (l ++ l1), l2. rewrite app_assoc. auto. Qed.
Lemma adj_cons p st u v : adj (p :: st) u v -> (exists l, st = u :: l /\ v = p) \/ adj st u v.
Proof. intros ([|x l1] & l2 & E); injection E as <- E; [left; eauto|right; exists l1, l2; auto]. Qed.
(* the end of the popping loop *)
Lemma zpops_stop st p a b l : zpops st p = a :: b :: l -> 0 < zcross b a p.
Proof.
  induction st as [|x [|y st] IH]; cbn [zpops]; try discriminate. destruct (Z.leb_spec (zcross y x p) 0); [apply IH|]. intros [= <- <- <-]. auto.
Qed.
(* the last popped point, and the points behind the new edge *)
Lemma zpops_popped st p a l : zpops st p = a :: l -> st = a :: l \/ exists l1 a', st = l1 ++ a' :: a :: l /\ zcross a a' p <= 0.
Proof.
  induction st as [|x [|y st] IH]; cbn [zpops]; auto. destruct (Z.leb_spec (zcross y x p) 0); auto. intros E. destruct (IH E) as [K|(l1 & a' & K & C)]; right.
  - injection K as <- <-. exists [], x. auto.
  - exists (x :: l1), a'. rewrite K. auto.
Qed.
Lemma dec_in st a l : dec (a :: l) -> In st l -> lexlt st a.
Proof. intros H I. inversion H as [|? ? _ F]; subst. rewrite Forall_forall in F. auto. Qed.
Lemma push_tri p a l : dec (p :: a :: l) -> tri_ok (a :: l) -> (forall b l', l = b :: l' -> 0 < zcross b a p) -> tri_ok (p :: a :: l).
Proof.
  intros D T C. split; auto. destruct T as [T T']. 
  assert (D' : dec (a :: l)) by (inversion D; auto). assert (Da : lexlt a p) by (eapply dec_in; [exact D|left; auto]).
  assert (A : forall u, In u l -> 0 < zcross u a p).
  { intros u I. destruct l as [|b l']; [contradiction|]. specialize (C b l' eq_refl). destruct I as [<-|I]; auto.
    inversion T as [|? ? F _]; subst. rewrite Forall_forall in F. specialize (F u I). 
    assert (Db : dec (b :: l')) by (inversion D'; auto).
    apply (turn_far u b a p); auto; [eapply dec_in; eauto|eapply dec_in; [exact D'|left; auto]]. }
  constructor; [apply Forall_forall; auto|].
  assert (G : forall l0, ForallOrdPairs (fun v u => 0 < zcross u v a) l0 -> dec l0 -> incl l0 l -> ForallOrdPairs (fun v u => 0 < zcross u v p) l0).
  { induction l0 as [|v l0 IH]; intros F D0 I; [constructor|]. inversion F as [|? ? F1 F2]; subst. constructor.
    - rewrite Forall_forall in *. intros u U. assert (Iv : In v l) by (apply I; left; auto). assert (Iu : In u l) by (apply I; right; auto).
      apply (turn_far u v a p); auto; [eapply dec_in; eauto|eapply dec_in; eauto].
    - apply IH; auto; [inversion D0; auto|]. intros x X. apply I. right. auto. }
  apply G; auto; [inversion D'; auto|intros x; auto].
Qed.
Lemma good_step st done p : Good st done -> (forall q, In q done -> lexle q p) ->
  Good (p :: zpops st p) (p :: done) \/ Stuck (p :: zpops st p) (p :: done).
Proof.
  intros (D & T & L & (lb & b0 & Eb & Ib & Lb & Sb) & (top & lt_ & Et & Lt) & Sub) Hp.
  destruct (zpops_suffix st p) as [pre Epre].
  assert (N : zpops st p <> []) by (apply zpops_nil; rewrite Et; discriminate).
  destruct (zpops st p) as [|a l] eqn:Z; [contradiction|]. 
  assert (Din : incl (a :: l) done) by (intros x X; apply Sub; rewrite Epre; apply in_or_app; right; auto).
  assert (Dal : dec (a :: l)) by (apply (dec_suffix pre); rewrite <- Epre; auto).
  assert (Tal : tri_ok (a :: l)) by (apply (tri_suffix pre); rewrite <- Epre; auto).
  assert (Ia : In a done) by (apply Din; left; auto).
  destruct (lexle_cases a p (Hp a Ia)) as [Lap|Eap].
  - left. assert (Dp : dec (p :: a :: l)).
    { constructor; auto. apply Forall_forall. intros x [<-|X]; auto. eapply lexlt_le; [eapply dec_in; eauto|]. apply Hp; auto. }
    split; auto. split.
    { apply push_tri; auto. intros b l' ->. eapply zpops_stop; eauto. }
    split; [|split; [|split]].
    + (* left *)
      assert (Old : forall u v, adj (a :: l) u v -> 0 <= zcross u v p).
      { intros u v Ad. assert (Tp : tri_ok (p :: a :: l)) by (apply push_tri; auto; intros b l' ->; eapply zpops_stop; eauto). destruct Tp as [Tp _].
        destruct Ad as (l1 & l2 & E). rewrite E in Tp. clear - Tp. induction l1 as [|x l1 IH]; cbn in Tp; inversion Tp as [|? ? F G]; subst; [inversion F; subst; lia|auto]. }
      intros u v q Ad Iq. apply adj_cons in Ad as [(l' & El & ->)|Ad].
      * injection El as <- <-. destruct Iq as [<-|Iq]; [unfold zcross; lia|].
        (* q behind or beyond a *)
        assert (Tot : lexle q a \/ lexle a q) by (unfold lexle, lnn, vs; cbn; lia).
        destruct Tot as [Qa|Aq].
        -- destruct l as [|b l'].
           ++ (* a is the bottom *)
              assert (a = b0). { rewrite Epre in Eb. apply app_inj_tail in Eb as [_ ->]. auto. } subst b0.
              assert (q = a). { destruct (lexle_cases q a Qa) as [K|K]; auto. exfalso. apply (lexlt_irr q). eapply lexlt_le; eauto. } subst q. unfold zcross. lia.
           ++ pose proof (zpops_stop _ _ _ _ _ Z) as St. 
              assert (Lq : 0 <= zcross b a q). { apply L; auto. rewrite Epre. apply adj_suffix. exists [], l'. auto. }
              assert (Lba : lexlt b a) by (eapply dec_in; [exact Dal|left; auto]).
              rewrite zc in *. pose proof (cr_trans_le (vs q a) (vs b a) (vs a p) Lba Qa (lpos_nn _ Lap)) as K.
              assert (X : cr (vs q a) (vs b a) = zcross b a q) by (unfold cr, vs, zcross; cbn; ring). rewrite zc in X.
              assert (Y : zcross a p q = cr (vs q a) (vs a p)) by (unfold cr, vs, zcross; cbn; ring). rewrite zc in Y. rewrite Y. apply K; lia.
        -- destruct (zpops_popped _ _ _ _ Z) as [K|(l1 & a' & K & C)].
           ++ assert (q = a). { rewrite K in Et. injection Et as <- <-. destruct (lexle_cases a q Aq) as [M|M]; auto. exfalso. apply (lexlt_irr a). eapply lexlt_le; eauto. } subst q. unfold zcross. lia.
           ++ assert (Lq : 0 <= zcross a a' q) by (apply L; auto; exists l1, l; auto).
              assert (La : lexlt a a'). { assert (Dd : dec (a' :: a :: l)) by (apply (dec_suffix l1); rewrite <- K; auto). eapply dec_in; [exact Dd|left; auto]. }
              assert (Y : zcross a p q = cr (vs a p) (vs a q)) by (unfold cr, vs, zcross; cbn; ring). rewrite Y.
              apply (cr_trans_le (vs a p) (vs a a') (vs a q)); [exact La|apply lpos_nn; auto|exact Aq| |].
              ** replace (cr (vs a p) (vs a a')) with (- zcross a a' p) by (unfold cr, vs, zcross; cbn; ring). lia.
              ** replace (cr (vs a a') (vs a q)) with (zcross a a' q) by (unfold cr, vs, zcross; cbn; ring). lia.
      * destruct Iq as [<-|Iq]; [apply Old; auto|]. apply L; auto. rewrite Epre. apply adj_suffix. auto.
    + destruct (exists_last N) as (l0 & b & El). assert (b = b0). { rewrite Epre, El, app_assoc in Eb. apply app_inj_tail in Eb as [_ ->]. auto. } subst b.
      exists (p :: l0), b0. rewrite El. split; [auto|]. split; [right; auto|]. split; [intros q [<-|Q]; auto|discriminate].
    + exists p, (a :: l). split; auto. intros q [<-|Q]; auto. apply lexle_refl.
    + intros x [<-|X]; [left; auto|right; auto].
  - subst p. destruct l as [|b l'].
    + right. exists a. split; [auto|]. split; [|left; auto].
      assert (a = b0). { rewrite Epre in Eb. apply app_inj_tail in Eb as [_ ->]. auto. } subst b0.
      intros q [<-|Q]; auto. destruct (lexle_cases q a (Hp q Q)) as [K|K]; auto. exfalso. apply (lexlt_irr q). eapply lexlt_le; eauto.
    + pose proof (zpops_stop _ _ _ _ _ Z) as St. unfold zcross in St. lia.
Qed.
Lemma stuck_step st done p : Stuck st done -> (forall q, In q done -> lexle q p) ->
  Good (p :: zpops st p) (p :: done) \/ Stuck (p :: zpops st p) (p :: done).
Proof.
  intros (a & -> & A & Ia) Hp. cbn [zpops]. assert (Z : zcross a a p = 0) by (unfold zcross; lia). rewrite Z. cbn [Z.leb Z.compare].
  destruct (lexle_cases a p (Hp a Ia)) as [K|K].
  - left. split; [constructor; [constructor; [constructor|constructor]|constructor; auto]|]. split; [cbn; repeat split; constructor; constructor|]. split.
    + intros u v q Ad Iq. apply adj_cons in Ad as [(l & E & ->)|Ad]; [|destruct Ad as ([|? [|? ?]] & ? & E); discriminate]. injection E as <- <-. destruct Iq as [<-|Iq]; [|rewrite (A q Iq)]; unfold zcross; lia.
    + split; [exists [p], a; split; auto; split; [right; auto|]; split; [intros q [<-|Iq]; [apply lpos_nn; auto|rewrite (A q Iq); apply lexle_refl]|discriminate]|].
      split; [exists p, [a]; split; auto; intros q [<-|Iq]; [apply lexle_refl|auto]|]. intros x [<-|[<-|[]]]; [left; auto|right; auto].
  - right. subst p. exists a. split; auto. split; [intros q [<-|Q]; auto|left; auto].
Qed.
Definition zchain (ps : list zp) (st : list zp) : list zp := fold_left (fun st p => p :: zpops st p) ps st.
Lemma zchain_inv ps st done : Good st done \/ Stuck st done -> StronglySorted lexle ps -> (forall q p, In q done -> In p ps -> lexle q p) ->
  Good (zchain ps st) (rev ps ++ done) \/ Stuck (zchain ps st) (rev ps ++ done).
Proof.
  revert st done. induction ps as [|p ps IH]; intros st done H S Hp; cbn [zchain fold_left rev app]; auto. inversion S as [|? ? S' F]; subst. rewrite Forall_forall in F.
  rewrite <- app_assoc. cbn [app]. apply IH; auto.
  - destruct H as [H|H]; [apply good_step|apply stuck_step]; auto; intros q Q; apply Hp; auto; left; auto.
  - intros q p' [<-|Q] P; [auto|apply Hp; auto; right; auto].
Qed.
Lemma zchain_good p ps : StronglySorted lexle (p :: ps) -> Good (zchain (p :: ps) []) (rev (p :: ps)) \/ Stuck (zchain (p :: ps) []) (rev (p :: ps)).
Proof.
  intros S. cbn [zchain fold_left zpops]. cbn [rev]. inversion S as [|? ? S' F]; subst. rewrite Forall_forall in F. apply (zchain_inv ps [p] [p]); auto.
  - left. split; [constructor; constructor|]. split; [cbn; split; constructor|]. split; [intros u v q ([|? [|? ?]] & ? & E); discriminate|].
    split; [exists [], p; split; auto; split; [left; auto|]; split; intros q; [intros [<-|[]]; apply lexle_refl|intros Q [<-|[]]; auto]|].
    split; [exists p, []; split; auto; intros q [<-|[]]; apply lexle_refl|]. intros x; auto.
  - intros q p' [<-|[]] P. auto.
Qed.
