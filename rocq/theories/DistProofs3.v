(* All ranks together: exchanging generators, and agreeing on what is shared. *)
From Verif Require Import Base BaseFacts StdAlg SerializeModel SerializeSpec SerializeProofs MeshModel MeshSpec MpiModel MpiSpec MpiProofs2 CollModel ExchangeModel ExchangeSpec ExchangeProofs2 SerialDistSpec SerialDistProofs SerialDistProofs3 CheckModel CheckProofs DistModel DistSpec DistProofs.
From Coq Require Import Sorted Lia Permutation.

Section Generators.
  Variables (D n : nat) (Dpos : 0 < D) (pts : nat -> list Z) (nb : nat -> list nat) (T : Talk D n pts nb).
  Definition out (r : nat) : list (nat * nat * gmsg) := flat_map (fun s => [(s, 1, GSize (usize (serialize (TVec TDouble) (pts r)))); (s, 2, GBytes (serialize (TVec TDouble) (pts r)))]) (nb r).
  Definition gensOf (l : list nat) : list Z := flat_map pts l.
  Definition domsOf (l : list nat) : list nat := flat_map (fun s => repeat s (length (pts s) / D)) l.
  Lemma buf_size r : r < n -> usize (serialize (TVec TDouble) (pts r)) = Z.of_nat (4 + 8 * length (pts r)) /\ length (serialize (TVec TDouble) (pts r)) = 4 + 8 * length (pts r).
  Proof. intros L. destruct (tk_points _ _ _ _ T r L) as (_ & _ & B). rewrite usize_small; rewrite ser_len; try split; auto; lia. Qed.
  Lemma sends_shape r k : r < n -> genSends (serialize (TVec TDouble) (pts r)) (nb r) k = sends (out r) k.
  Proof.
    intros L. destruct (buf_size r L) as [Eu _]. unfold out. induction (nb r) as [|s l IH]; auto. cbn [genSends flat_map app sends]. rewrite IH. rewrite Eu. destruct (Z.ltb_spec 0 (Z.of_nat (4 + 8 * length (pts r)))); [auto|lia].
  Qed.
  Lemma box_from r s : r < n -> In s (nb r) -> s < n /\ to_ r 1 (out s) = [GSize (Z.of_nat (4 + 8 * length (pts s)))] /\ to_ r 2 (out s) = [GBytes (serialize (TVec TDouble) (pts s))].
  Proof.
    intros L I. pose proof (tk_range _ _ _ _ T r s L I) as Ls. split; auto. apply (tk_mutual _ _ _ _ T r s L Ls) in I. destruct (tk_nodup _ _ _ _ T s Ls) as [ND _]. destruct (buf_size s Ls) as [Eu _]. unfold out.
    assert (O : forall t q, q <> r -> to_ r t [(q, 1, GSize (usize (serialize (TVec TDouble) (pts s)))); (q, 2, GBytes (serialize (TVec TDouble) (pts s)))] = []). { intros t q N. rewrite !to_cons. destruct (Nat.eqb_spec q r); [contradiction|]. auto. }
    split; (rewrite (to_flat r _ _ (nb s) r ND I); [|intros q Iq N; apply O; auto]); rewrite !to_cons, Nat.eqb_refl; cbn [andb Nat.eqb app]; rewrite ?Eu; reflexivity.
  Qed.
  Lemma div_app a b : (exists k, length a = D * k) -> length (a ++ b) / D = length (A := Z) a / D + length b / D.
  Proof. intros [k E]. rewrite app_length, E. replace (D * k + length b) with (length b + k * D) by lia. rewrite Nat.div_add by lia. replace (D * k) with (k * D) by lia. rewrite Nat.div_mul by lia. lia. Qed.
  Lemma dec s : s < n -> deserialize (TVec TDouble) true [] (serialize (TVec TDouble) (pts s)) = Ok (pts s, []).
  Proof.
    intros L. destruct (tk_points _ _ _ _ T s L) as (_ & F & B). pose proof (roundtrip (TVec TDouble) true (pts s) []) as R. rewrite app_nil_r in R. apply R. split; auto. change (Z.of_nat (@length Z (pts s)) < 2 ^ 32)%Z. lia.
  Qed.
  Lemma recvs l : forall box gens g2d, NoDup l -> (forall s, In s l -> s < n /\ box s 1 = [GSize (Z.of_nat (4 + 8 * length (pts s)))] /\ box s 2 = [GBytes (serialize (TVec TDouble) (pts s))]) ->
    (exists k, length gens = D * k) -> length g2d = length gens / D -> gets (2 * length l) box (genRecvs D l gens g2d) (Ok (gens ++ gensOf l, g2d ++ domsOf l)).
  Proof.
    induction l as [|s l IH]; intros box gens g2d ND H K Lg.
    - cbn. rewrite !app_nil_r. constructor.
    - inversion ND as [|? ? N1 N2]; subst. destruct (H s ltac:(left; auto)) as (Ls & B1 & B2). cbn [length]. replace (2 * S (length l)) with (S (S (2 * length l))) by lia. cbn [genRecvs].
      apply gets_recv with (m := GSize (Z.of_nat (4 + 8 * length (pts s)))) (rest := []); auto. destruct (Z.ltb_spec 0 (Z.of_nat (4 + 8 * length (pts s)))); [|lia].
      apply gets_recv with (m := GBytes (serialize (TVec TDouble) (pts s))) (rest := []); [rewrite Nat.eqb_refl; auto|]. destruct (buf_size s Ls) as [_ El]. rewrite El, Z.eqb_refl. rewrite dec by auto. cbn [lift isnil assert].
      destruct (tk_points _ _ _ _ T s Ls) as (Ks & _). assert (Er : resize s (length (gens ++ pts s) / D) g2d = g2d ++ repeat s (length (pts s) / D)). { unfold resize. rewrite (div_app gens (pts s) K), <- Lg. rewrite firstn_all2 by apply Nat.le_add_r. f_equal. f_equal. rewrite Nat.add_comm. apply Nat.add_sub. }
      rewrite Er. unfold gensOf, domsOf. cbn [flat_map]. rewrite !app_assoc. apply IH; auto.
      + intros q I. destruct (H q ltac:(right; auto)) as (Lq & C1 & C2). assert (q <> s) by (intros ->; auto). destruct (Nat.eqb_spec q s); [contradiction|]. cbn [andb]. auto.
      + destruct K as [k K], Ks as [k' K']. exists (k + k'). rewrite app_length. lia.
      + rewrite app_length, repeat_length, (div_app gens (pts s) K). lia.
  Qed.
  Lemma generators_ok : Finishes n (fun r => if r <? n then genExchange D r (pts r) (nb r) else Ret (Ok ([], []))) (fun r => Ok (gensOf (r :: nb r), domsOf (r :: nb r))).
  Proof.
    refine (sends_then_gets n _ out (fun r => genRecvs D (nb r) (pts r) (repeat r (length (pts r) / D))) (fun r => 2 * length (nb r)) _ _ _ _).
    - intros r L. destruct (Nat.ltb_spec r n); [|lia]. apply sends_shape. auto.
    - intros r L. destruct (Nat.ltb_spec r n); [lia|]. eauto.
    - intros r L. apply recvs.
      + apply (tk_nodup _ _ _ _ T r L).
      + intros s I. destruct (box_from r s L I) as (Ls & B). split; auto. destruct (Nat.ltb_spec s n); [auto|lia].
      + apply (tk_points _ _ _ _ T r L).
      + apply repeat_length.
  Qed.
  Lemma doms_from r s i : From_ (domsOf (r :: nb r)) s i -> s = r \/ In s (nb r).
  Proof. intros E. apply nth_error_In in E. apply in_flat_map in E as (q & [<-|I] & E); apply repeat_spec in E; subst; auto. Qed.
  Lemma input_ok {V} (m : mesh V) r : r < n -> pts r <> [] -> ~ In r (nb r) -> StronglySorted lt (nb r) -> Fresh D m -> length (cells m) = length (gensOf (r :: nb r)) / D ->
    DistInput D m (domsOf (r :: nb r)) r (nb r) (length (pts r) / D).
  Proof.
    intros L Ne Nr Sd FR Lc. destruct (tk_points _ _ _ _ T r L) as ([k K] & _).
    assert (Ld : forall l, (forall s, In s l -> s < n) -> length (domsOf l) = length (gensOf l) / D /\ exists k, length (gensOf l) = D * k).
    { induction l as [|s l IH]; intros H; [split; [rewrite Nat.div_0_l by lia; auto|exists 0; cbn; lia]|]. destruct IH as [E [k' K']]; [intros; apply H; right; auto|]. destruct (tk_points _ _ _ _ T s ltac:(apply H; left; auto)) as (Ks & _). unfold domsOf, gensOf in *. cbn [flat_map]. rewrite app_length, repeat_length, E, (div_app _ _ Ks). split; auto. destruct Ks as [k2 K2]. exists (k2 + k'). rewrite app_length. lia. }
    assert (Lr : forall s, In s (r :: nb r) -> s < n) by (intros s [<-|I]; [auto|eapply (tk_range _ _ _ _ T); eauto]).
    constructor; auto.
    - rewrite Lc. apply Ld. auto.
    - intros i. split.
      + intros E. unfold From_, domsOf in E. cbn [flat_map] in E. destruct (Nat.lt_ge_cases i (length (pts r) / D)) as [|Li]; auto. exfalso. rewrite nth_error_app2 in E by (rewrite repeat_length; auto). apply nth_error_In in E. apply in_flat_map in E as (q & I & E). apply repeat_spec in E. subst. auto.
      + intros Li. unfold From_, domsOf. cbn [flat_map]. rewrite nth_error_app1 by (rewrite repeat_length; auto). apply nth_error_repeat. auto.
    - rewrite K. replace (D * k) with (k * D) by lia. rewrite Nat.div_mul by lia. destruct k; [|lia]. destruct (pts r); [congruence|cbn in K; lia].
    - intros i s E N. apply doms_from in E as [->|]; auto. contradiction.
  Qed.

End Generators.

(* the check that neighbors are mutual *)
Lemma count_nodup (l : list nat) x : NoDup l -> count_occ Nat.eq_dec l x = if in_dec Nat.eq_dec x l then 1 else 0.
Proof. intros N. destruct (in_dec Nat.eq_dec x l) as [I|I]; [|apply count_occ_not_In; auto]. pose proof (proj1 (NoDup_count_occ Nat.eq_dec l) N x) as A. apply (count_occ_In Nat.eq_dec) in I. lia. Qed.
Definition kOf {A} (p : cprog A) := match p with CBcast _ _ _ k => k | _ => fun _ => p end.
Definition vOf {A} (p : cprog A) := match p with CBcast _ _ v _ => v | _ => [] end.
Section Mutual.
  Variables (n : nat) (nb : nat -> list nat).
  Hypothesis ND : forall r, r < n -> NoDup (nb r) /\ (Z.of_nat (length (nb r)) < 2 ^ 32)%Z.
  Lemma resized p : resize 0%Z (length (nb p)) (map Z.of_nat (nb p)) = map Z.of_nat (nb p).
  Proof. replace (length (nb p)) with (length (map Z.of_nat (nb p))) by apply map_length. apply resize_same. Qed.
  Lemma back p : map Z.to_nat (map Z.of_nat (nb p)) = nb p.
  Proof. rewrite map_map. rewrite (map_ext _ (fun x => x)) by (intros; apply Nat2Z.id). apply map_id. Qed.
  Lemma contract_ok procs : (forall r s, r < n -> s < n -> In s (nb r) <-> In r (nb s)) -> (forall p, In p procs -> p < n) -> Together n (fun r => contract r (nb r) procs) (fun _ => Ok tt).
  Proof.
    intros M. induction procs as [|p procs IH]; intros Hp; [apply t_ret; auto|]. assert (Lp : p < n) by (apply Hp; left; auto). destruct (ND p Lp) as [ND1 B]. specialize (IH ltac:(intros; apply Hp; right; auto)).
    eapply t_bcast with (v := fun r => [usize (nb r)]); [exact Lp|intros r Lr; reflexivity|reflexivity|]. cbn beta match. rewrite (usize_small (nb p)) by auto. destruct (Z.ltb_spec 0 (Z.of_nat (length (nb p)))) as [Lz|Lz]; [|exact IH]. rewrite Nat2Z.id.
    eapply t_bcast with (v := fun r => resize 0%Z (length (nb p)) (map Z.of_nat (nb r))); [exact Lp|intros r Lr; reflexivity|rewrite resized; apply map_length|]. cbn beta. rewrite resized, back.
    eapply together_ext; [|exact IH]. intros r Lr. cbn beta. destruct (ND r Lr) as [NDr _]. rewrite !count_nodup by auto. pose proof (M r p Lr Lp) as Mr. destruct (in_dec Nat.eq_dec p (nb r)), (in_dec Nat.eq_dec r (nb p)); try (exfalso; tauto); cbn; rewrite orb_true_r; reflexivity.
  Qed.
  Lemma contract_conv procs : (forall p, In p procs -> p < n) -> Together n (fun r => contract r (nb r) procs) (fun _ => Ok tt) -> forall p, In p procs -> nb p <> [] -> forall r, r < n -> In p (nb r) <-> In r (nb p).
  Proof.
    induction procs as [|p procs IH]; intros Hp T q Iq Ne r Lr; [destruct Iq|]. assert (Lp : p < n) by (apply Hp; left; auto).
    inversion T as [ps a H|ps root cnt v k a Lroot H Lv T1|ps v k a mm H]; subst; [specialize (H r Lr); discriminate| |specialize (H r Lr); discriminate].
    assert (Eroot : root = p) by (specialize (H r Lr); cbn [contract] in H; injection H; auto). subst root. clear Lroot.
    assert (Ev : forall r, r < n -> v r = [usize (nb r)]) by (intros r' L'; specialize (H r' L'); cbn [contract] in H; injection H; auto).
    destruct (ND p Lp) as [ND1 B]. rewrite (Ev p Lp), (usize_small (nb p)) in T1 by auto.
    assert (T2 : Together n (fun r => if (0 <? Z.of_nat (length (nb p)))%Z then CBcast p (length (nb p)) (resize 0%Z (length (nb p)) (map Z.of_nat (nb r))) (fun others => clift (assert ((r =? p) || (count_occ Nat.eq_dec (nb r) p =? count_occ Nat.eq_dec (map Z.to_nat others) r))) (fun _ => contract r (nb r) procs)) else contract r (nb r) procs) (fun _ => Ok tt)).
    { eapply together_ext; [|exact T1]. intros r' L'. specialize (H r' L'). cbn [contract] in H. apply (f_equal kOf) in H. cbn [kOf] in H. cbn beta. rewrite <- H. cbn beta match. rewrite Nat2Z.id. reflexivity. }
    clear T1 T H. destruct (Z.ltb_spec 0 (Z.of_nat (length (nb p)))) as [Lz|Lz].
    - inversion T2 as [ps a H|ps root cnt v2 k2 a Lroot H Lv T3|ps v2 k2 a mm H]; subst; [specialize (H r Lr); discriminate| |specialize (H r Lr); discriminate].
      assert (Eroot : root = p) by (specialize (H r Lr); injection H; auto). subst root.
      assert (E2 : v2 p = map Z.of_nat (nb p)) by (specialize (H p Lp); apply (f_equal vOf) in H; cbn [vOf] in H; rewrite <- H; apply resized). rewrite E2 in T3.
      assert (T4 : Together n (fun r => clift (assert ((r =? p) || (count_occ Nat.eq_dec (nb r) p =? count_occ Nat.eq_dec (nb p) r))) (fun _ => contract r (nb r) procs)) (fun _ => Ok tt)).
      { eapply together_ext; [|exact T3]. intros r' L'. specialize (H r' L'). apply (f_equal kOf) in H. cbn [kOf] in H. cbn beta. rewrite <- H. rewrite back. reflexivity. }
      clear T3 T2 H E2.
      assert (All : forall r, r < n -> (r =? p) || (count_occ Nat.eq_dec (nb r) p =? count_occ Nat.eq_dec (nb p) r) = true).
      { intros r' L'. destruct ((r' =? p) || (count_occ Nat.eq_dec (nb r') p =? count_occ Nat.eq_dec (nb p) r')) eqn:E; auto. exfalso. inversion T4 as [ps a H|ps root cnt v3 k3 a Lroot3 H|ps v3 k3 a mm H]; subst; specialize (H r' L'); rewrite E in H; discriminate. }
      destruct Iq as [<-|Iq].
      + specialize (All r Lr). destruct (Nat.eqb_spec r p) as [->|]; [tauto|]. cbn [orb] in All. apply Nat.eqb_eq in All. rewrite !count_nodup in All by (apply ND; auto). destruct (in_dec Nat.eq_dec p (nb r)), (in_dec Nat.eq_dec r (nb p)); try discriminate; tauto.
      + apply IH; auto; [intros; apply Hp; right; auto|]. eapply together_ext; [|exact T4]. intros r' L'. cbn beta. rewrite (All r' L'). reflexivity.
    - destruct Iq as [<-|Iq]; [destruct (nb p); [congruence|cbn in Lz; lia]|]. apply IH; auto. intros; apply Hp; right; auto.
  Qed.
End Mutual.

(* sorting by key gives the same order on both sides *)
Lemma map_inj_in {A B} (f : A -> B) l : forall l', (forall x y, In x l -> In y l' -> f x = f y -> x = y) -> map f l = map f l' -> l = l'.
Proof. induction l as [|a l IH]; intros [|b l'] H E; try discriminate; auto. cbn in E. injection E as E1 E2. f_equal; [apply H; cbn; auto|apply IH; auto]. intros; apply H; cbn; auto. Qed.
Lemma agree_lists n Has name key K : Agree n Has name key K -> forall r s xs ys, r < n -> s < n -> r <> s ->
  NoDup xs -> Ordered (key r) xs -> (forall x, In x xs <-> Has r r x /\ Has r s x) -> NoDup ys -> Ordered (key s) ys -> (forall y, In y ys <-> Has s s y /\ Has s r y) -> map (name r) xs = map (name s) ys.
Proof.
  intros A r s xs ys Lr Ls N ND1 O1 I1 ND2 O2 I2.
  assert (H1 : forall q l, q < n -> NoDup l -> Ordered (key q) l -> (forall x, In x l -> Has q q x) -> NoDup (map (name q) l) /\ StronglySorted lexle (map K (map (name q) l))).
  { clear - A. intros q l Lq ND O I. split; [apply SerialDistProofs2.nodup_map_in; auto; intros x y Ix Iy; apply (ag_inj _ _ _ _ _ A q); auto|]. rewrite map_map. rewrite (map_ext_in _ (key q) l) by (intros x Ix; symmetry; apply (ag_key _ _ _ _ _ A); auto). clear - O. unfold Ordered in O. induction O as [|a l O IH F]; cbn; constructor; auto. rewrite Forall_map. auto. }
  destruct (H1 r xs Lr ND1 O1) as [A1 A2]; [intros x I; apply I1; auto|]. destruct (H1 s ys Ls ND2 O2) as [B1 B2]; [intros x I; apply I2; auto|].
  assert (P : Permutation (map (name r) xs) (map (name s) ys)).
  { apply NoDup_Permutation; auto. intros X. rewrite !in_map_iff. split.
    - intros (x & <- & I). apply I1 in I as [X1 X2]. apply (ag_meet _ _ _ _ _ A r s x Lr Ls N X1) in X2 as (y & Y1 & E). exists y. split; auto. apply I2. split; auto. apply (ag_meet _ _ _ _ _ A s r y Ls Lr ltac:(auto) Y1). exists x. auto.
    - intros (y & <- & I). apply I2 in I as [Y1 Y2]. apply (ag_meet _ _ _ _ _ A s r y Ls Lr ltac:(auto) Y1) in Y2 as (x & X1 & E). exists x. split; auto. apply I1. split; auto. apply (ag_meet _ _ _ _ _ A r s x Lr Ls N X1). exists y. auto. }
  apply (map_inj_in K).
  - intros X Y IX IY E. apply in_map_iff in IX as (x & <- & Ix). apply in_map_iff in IY as (y & <- & Iy). apply I1 in Ix as [X1 _]. apply I2 in Iy as [Y1 _]. apply (ag_tell _ _ _ _ _ A r s); auto.
  - apply sorted_perm; auto. apply Permutation_map. auto.
Qed.

Lemma stand_names kN l xs (f : nat -> nat) : Stand kN l xs -> Stand (map f kN) l (map f xs).
Proof. induction 1 as [|j x l xs E S0 IH]; cbn; constructor; auto. rewrite nth_error_map, E. auto. Qed.

Section Ranks.
  Context {V : Type} (D n : nat) (Dpos : 0 < D).
  Variables (m m' : nat -> mesh V) (g2d : nat -> list nat) (nb : nat -> list nat) (nlocal : nat -> nat) (nkey fkey : nat -> nat -> list Z) (kC kF kN : nat -> list nat).
  Hypothesis DI : forall r, r < n -> DistInput D (m r) (g2d r) r (nb r) (nlocal r).
  Hypothesis KP : forall r, r < n -> Kept D (m r) (g2d r) r (nb r) (nkey r) (fkey r) (m' r) (kC r) (kF r) (kN r).
  Hypothesis NB : forall r s, r < n -> In s (nb r) -> s < n.
  Variables (nname fname : nat -> nat -> nat) (NK FK : nat -> list Z).
  Hypothesis AN : Agree n (fun r s x => RankNode (m r) (From_ (g2d r)) s x) nname nkey NK.
  Hypothesis AF : Agree n (fun r s f => RankFace (m r) (From_ (g2d r)) s f) fname fkey FK.

  Lemma kept_node r x : r < n -> In x (kN r) <-> RankNode (m r) (From_ (g2d r)) r x.
  Proof.
    intros L. pose proof (kp_part _ _ _ _ _ _ _ _ _ _ _ (KP r L)) as P. pose proof (kp_cells _ _ _ _ _ _ _ _ _ _ _ (KP r L)) as KC. rewrite (po_N _ _ _ _ _ _ P). split.
    - intros (f & ns & If & Ef & Ix). apply (po_F _ _ _ _ _ _ P) in If as (i & c & w & Ii & Ec & Iw & <-). exists i. split; [apply KC; auto|exists c, w, ns; auto].
    - intros (i & Oi & c & w & ns & Ec & Iw & Ef & Ix). exists (pid w), ns. split; auto. apply (po_F _ _ _ _ _ _ P). exists i, c, w. split; [apply KC; auto|auto].
  Qed.
  Lemma kept_nbr r s : r < n -> In s (neighborDomains (m' r)) <-> Neighbor (m r) (From_ (g2d r)) r s.
  Proof.
    intros L. rewrite (kp_nd _ _ _ _ _ _ _ _ _ _ _ (KP r L)). split; [tauto|]. intros H. split; auto. destruct H as (N & x & _ & i & O & _). eapply (di_known _ _ _ _ _ _ (DI r L)); eauto.
  Qed.
  Lemma nbr_range r s : r < n -> In s (neighborDomains (m' r)) -> s < n /\ s <> r.
  Proof. intros L I. apply (kp_nd _ _ _ _ _ _ _ _ _ _ _ (KP r L)) in I as (I & N & _). split; auto. eapply NB; eauto. Qed.
  Lemma nbr_sym r s : r < n -> In s (neighborDomains (m' r)) -> In r (neighborDomains (m' s)).
  Proof.
    intros L I. destruct (nbr_range r s L I) as [Ls N]. apply (kept_nbr r s L) in I as (_ & x & X1 & X2). apply (kept_nbr s r Ls). split; auto.
    apply (ag_meet _ _ _ _ _ AN r s x L Ls ltac:(auto) X1) in X2 as (y & Y1 & E). exists y. split; auto. apply (ag_meet _ _ _ _ _ AN s r y Ls L N Y1). exists x. auto.
  Qed.
  Lemma lists_ok r s i : r < n -> nth_error (neighborDomains (m' r)) i = Some s -> exists i' l l' g g' X Y, nth_error (neighborDomains (m' s)) i' = Some r /\
    nth_error (sharedNodes (m' r)) i = Some l /\ nth_error (sharedNodes (m' s)) i' = Some l' /\ Stand (map (nname r) (kN r)) l X /\ Stand (map (nname s) (kN s)) l' X /\
    nth_error (sharedFaces (m' r)) i = Some g /\ nth_error (sharedFaces (m' s)) i' = Some g' /\ Stand (map (fname r) (kF r)) g Y /\ Stand (map (fname s) (kF s)) g' Y.
  Proof.
    intros L E. pose proof (nth_error_In _ _ E) as I. destruct (nbr_range r s L I) as [Ls N]. pose proof (nbr_sym r s L I) as I'. apply In_nth_error in I' as [i' E'].
    pose proof (KP r L) as Kr. pose proof (KP s Ls) as Ks. destruct (kp_sizes _ _ _ _ _ _ _ _ _ _ _ Kr) as [A1 A2]. destruct (kp_sizes _ _ _ _ _ _ _ _ _ _ _ Ks) as [B1 B2]. pose proof (nth_error_lt _ _ _ E) as Li. pose proof (nth_error_lt _ _ _ E') as Li'.
    destruct (nth_error_ex (sharedNodes (m' r)) i) as [l El]; [lia|]. destruct (nth_error_ex (sharedNodes (m' s)) i') as [l' El']; [lia|]. destruct (nth_error_ex (sharedFaces (m' r)) i) as [g Eg]; [lia|]. destruct (nth_error_ex (sharedFaces (m' s)) i') as [g' Eg']; [lia|].
    destruct (kp_sn _ _ _ _ _ _ _ _ _ _ _ Kr i s l E El) as (xs & S1 & ND1 & O1 & I1). destruct (kp_sn _ _ _ _ _ _ _ _ _ _ _ Ks i' r l' E' El') as (ys & S2 & ND2 & O2 & I2).
    destruct (kp_sf _ _ _ _ _ _ _ _ _ _ _ Kr i s g E Eg) as (fs & S3 & ND3 & O3 & I3). destruct (kp_sf _ _ _ _ _ _ _ _ _ _ _ Ks i' r g' E' Eg') as (gs & S4 & ND4 & O4 & I4).
    pose proof (agree_lists _ _ _ _ _ AN r s xs ys L Ls ltac:(auto) ND1 O1 I1 ND2 O2 I2) as EN. pose proof (agree_lists _ _ _ _ _ AF r s fs gs L Ls ltac:(auto) ND3 O3 I3 ND4 O4 I4) as EF.
    exists i', l, l', g, g', (map (nname r) xs), (map (fname r) fs). do 3 (split; [auto|]). split; [apply stand_names; auto|]. split; [rewrite EN; apply stand_names; auto|]. do 2 (split; [auto|]). split; [apply stand_names; auto|]. rewrite EF. apply stand_names. auto.
  Qed.
  Definition partOf (r : nat) : part V := mkPart (nodes (m' r)) (map (nname r) (kN r)) (neighborDomains (m' r)) (sharedNodes (m' r)).
  Lemma consistent_ok : Consistent D n partOf.
  Proof.
    constructor; cbn.
    - intros r L. pose proof (kp_part _ _ _ _ _ _ _ _ _ _ _ (KP r L)) as P. rewrite map_length. split; [exact (po_nnodes _ _ _ _ _ _ P)|apply (kp_sizes _ _ _ _ _ _ _ _ _ _ _ (KP r L))].
    - intros r L. pose proof (kp_part _ _ _ _ _ _ _ _ _ _ _ (KP r L)) as P. apply SerialDistProofs2.nodup_map_in; [apply sorted_lt_nodup, (po_sortedN _ _ _ _ _ _ P)|]. intros x y Ix Iy. apply (ag_inj _ _ _ _ _ AN r); auto; apply kept_node; auto.
    - intros r L. split; [apply sorted_lt_nodup, (kp_sorted _ _ _ _ _ _ _ _ _ _ _ (KP r L))|]. intros s I. apply nbr_range; auto.
    - intros r i s l L E El. destruct (lists_ok r s i L E) as (i' & l1 & l' & g & g' & X & Y & E1 & E2 & E3 & S1 & S2 & _). rewrite El in E2. injection E2 as <-. exists i', l'. split; auto. split; auto. exists X. auto.
    - intros r s X Lr Ls N Hr Hs. unfold Holds in *. cbn in *. apply in_map_iff in Hr as (x & <- & Hx). apply in_map_iff in Hs as (y & E & Hy). apply kept_node in Hx; auto. apply kept_node in Hy; auto.
      assert (SN : SharedNode (m r) (From_ (g2d r)) r s x) by (split; auto; apply (ag_meet _ _ _ _ _ AN r s x); eauto).
      assert (I : In s (neighborDomains (m' r))) by (apply kept_nbr; auto; split; eauto). apply In_nth_error in I as [i Ei]. destruct (kp_sizes _ _ _ _ _ _ _ _ _ _ _ (KP r Lr)) as [A1 _]. destruct (nth_error_ex (sharedNodes (m' r)) i) as [l El]; [rewrite A1; eapply nth_error_lt; eauto|].
      destruct (kp_sn _ _ _ _ _ _ _ _ _ _ _ (KP r Lr) i s l Ei El) as (xs & T & _ & _ & HX). apply HX in SN. destruct (Forall2_in_r _ _ _ _ T SN) as (j & Ij & Ej). exists i, l, j. cbn. split; auto. split; auto. split; auto. rewrite nth_error_map, Ej. auto.
  Qed.
End Ranks.
