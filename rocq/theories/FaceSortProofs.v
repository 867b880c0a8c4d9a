(* Lemmas for FaceSortProps.v *)
From Verif Require Import Base BaseFacts KeyMapModel FaceSortModel FaceSortSpec.
From Coq Require Import Sorted Permutation.

Lemma last_cons {A} (l : list A) (a b : A) : last (b :: l) a = last l b.
Proof.
  revert a b; induction l as [|c l IH]; intros a b; [reflexivity|].
  change (last (c :: l) a = last (c :: l) b). rewrite !IH. reflexivity.
Qed.
Lemma last_in {A} (l : list A) a : In (last l a) (a :: l).
Proof.
  revert a; induction l as [|b l IH]; intros a; [left; auto|]. rewrite last_cons. right. apply IH.
Qed.
Lemma removelast_perm {A} (l : list A) a : Permutation (a :: l) (removelast (a :: l) ++ [last l a]).
Proof. rewrite <- (last_cons l a a). rewrite <- app_removelast_last by discriminate. reflexivity. Qed.

(* ---- routes ---- *)
Section Routes.
  Context {E : Type} (ends : E -> Z * Z).
  Notation route := (route ends). Notation joins := (joins ends).

  Lemma joins_sym e a b : joins e a b -> joins e b a.
  Proof. unfold FaceSortSpec.joins; tauto. Qed.

  Lemma route_length a es ns : route a es ns -> length es = length ns.
  Proof. revert a ns; induction es as [|e es IH]; intros a [|b ns]; cbn; try tauto. intros [_ R]. erewrite IH; eauto. Qed.

  Lemma route_app a es1 es2 ns : route a (es1 ++ es2) ns <->
    exists n1 n2, ns = n1 ++ n2 /\ route a es1 n1 /\ route (last n1 a) es2 n2.
  Proof.
    revert a ns; induction es1 as [|e es1 IH]; intros a ns.
    - split.
      + intros R. exists [], ns. cbn. auto.
      + intros (n1 & n2 & -> & R1 & R2). destruct n1; cbn in *; tauto.
    - split.
      + destruct ns as [|b ns]; cbn; [tauto|]. intros [J R]. apply IH in R as (n1 & n2 & -> & R1 & R2).
        exists (b :: n1), n2. split; auto. split; [cbn; auto|].
        fold (last (b :: n1) a). rewrite last_cons. exact R2.
      + intros (n1 & n2 & -> & R1 & R2). destruct n1 as [|b n1]; [destruct R1|]. destruct R1 as [J R1].
        cbn. split; auto. apply IH. exists n1, n2. split; auto. split; auto.
        rewrite last_cons in R2. exact R2.
  Qed.

  Lemma route_rev a es ns : route a es ns -> route (last ns a) (rev es) (rev (removelast (a :: ns))).
  Proof.
    revert a ns; induction es as [|e es IH]; intros a [|b ns]; cbn [FaceSortSpec.route]; try tauto.
    intros [J R]. rewrite last_cons. cbn [rev].
    change (removelast (a :: b :: ns)) with (a :: removelast (b :: ns)). cbn [rev].
    apply route_app. exists (rev (removelast (b :: ns))), [a]. split; auto. split; [apply IH; auto|].
    cbn [FaceSortSpec.route]. split; auto.
    assert (L : forall x y (l : list Z), last (rev (removelast (x :: l))) (last l y) = x \/ l = []).
    { intros x y l. destruct l as [|c l]; [right; auto|left].
      change (removelast (x :: c :: l)) with (x :: removelast (c :: l)). cbn [rev].
      rewrite last_last. reflexivity. }
    destruct (L b b ns) as [-> | ->]; [apply joins_sym; auto|]. cbn. apply joins_sym; auto.
  Qed.

  Lemma route_joins_in a es ns e : route a es ns -> In e es ->
    exists x y, joins e x y /\ In x (removelast (a :: ns)) /\ In y ns.
  Proof.
    revert a ns; induction es as [|e0 es IH]; intros a [|b ns]; cbn [FaceSortSpec.route]; try tauto; [intros _ []|].
    intros [J R] [->|I].
    - exists a, b. split; auto. split; [left; auto|left; auto].
    - destruct (IH b ns R I) as (x & y & J' & Ix & Iy). exists x, y. split; auto. split.
      + change (removelast (a :: b :: ns)) with (a :: removelast (b :: ns)). right; auto.
      + right; auto.
  Qed.

  Lemma removelast_in {A} (l : list A) x : In x (removelast l) -> In x l.
  Proof.
    destruct l as [|a l]; [intros []|]. intros I.
    rewrite (app_removelast_last a (l:=a::l)) by discriminate. apply in_or_app; left; auto.
  Qed.

  Definition inc (e : E) (k : Z) : Prop := fst (ends e) = k \/ snd (ends e) = k.

  Lemma joins_inc e x y k : joins e x y -> (inc e k <-> k = x \/ k = y).
  Proof. unfold inc, FaceSortSpec.joins. intros [->| ->]; cbn; intuition congruence. Qed.

  Lemma route_inc a es ns e k : route a es ns -> In e es -> inc e k -> In k (a :: ns).
  Proof.
    intros R I Hk. destruct (route_joins_in a es ns e R I) as (x & y & J & Ix & Iy).
    rewrite (joins_inc _ _ _ k J) in Hk. destruct Hk as [Hk|Hk]; rewrite Hk; [apply removelast_in; auto|right; auto].
  Qed.

  Lemma route_ends a es ns : route a es ns ->
    Permutation (flat_map (fun e => [fst (ends e); snd (ends e)]) es) (removelast (a :: ns) ++ ns).
  Proof.
    revert a ns; induction es as [|e es IH]; intros a [|b ns]; cbn [FaceSortSpec.route]; try tauto; [reflexivity|].
    intros [J R]. cbn [flat_map]. rewrite (IH b ns R).
    change (removelast (a :: b :: ns)) with (a :: removelast (b :: ns)).
    cbn [app]. destruct J as [-> | ->]; cbn [fst snd app].
    - constructor. apply Permutation_middle.
    - etransitivity; [apply perm_swap|]. constructor. apply Permutation_middle.
  Qed.

  (* no later edge of the walk touches an earlier node *)
  Fixpoint nice (a : Z) (es : list E) : Prop :=
    match es with
    | [] => True
    | e :: t => exists b, joins e a b /\ (forall x, In x t -> ~ inc x a) /\ nice b t
    end.

  Lemma route_nice a es ns : route a es ns -> NoDup (a :: ns) -> nice a es.
  Proof.
    revert a ns; induction es as [|e es IH]; intros a [|b ns]; cbn [FaceSortSpec.route]; try tauto.
    intros [J R] N. exists b. split; auto. inversion N; subst. split; [|eapply IH; eauto].
    intros x Ix Hx. eapply route_inc in Hx; eauto.
  Qed.

  Lemma route_nodup a es ns : route a es ns -> NoDup (a :: ns) -> NoDup es.
  Proof.
    revert a ns; induction es as [|e es IH]; intros a [|b ns]; cbn [FaceSortSpec.route]; try tauto; [intros; constructor|].
    intros [J R] N. inversion N; subst. constructor; [|eapply IH; eauto].
    intros Ie. apply H1. eapply route_inc; eauto. apply (joins_inc _ _ _ _ J); auto.
  Qed.

  Lemma cycle_nodup a es ns : route a es ns -> NoDup ns -> last ns a = a -> 3 <= length ns -> NoDup es.
  Proof.
    intros R N C L. destruct es as [|e es]; [constructor|]. destruct ns as [|b ns]; [destruct R|].
    destruct R as [J R]. constructor; [|eapply route_nodup; eauto].
    intros Ie. pose proof (route_nice b es ns R N) as Nc.
    destruct es as [|e1 es]; [destruct Ie|]. destruct ns as [|c ns]; [destruct R|].
    destruct Nc as (c' & _ & Nc & _). destruct R as [J1 R].
    destruct Ie as [->|Ie].
    2:{ eapply Nc; eauto. apply (joins_inc _ _ _ _ J); auto. }
    inversion N; subst. inversion H2; subst. rewrite !last_cons in C.
    assert (a = c).
    { destruct J as [Ej|Ej], J1 as [Ej1|Ej1]; rewrite Ej in Ej1; injection Ej1; intros; subst; auto. }
    subst c. destruct ns as [|d ns]; [cbn in L; lia|]. rewrite last_cons in C.
    apply H3. rewrite <- C at 1. apply last_in.
  Qed.
End Routes.

(* ---- the node-to-edge map and the walk ---- *)
Section WalkP.
  Context {E : Type} (elt : E -> E -> bool) (ends : E -> Z * Z).
  Context (irr : forall a, elt a a = false).
  Context (tra : forall a b c, elt a b = true -> elt b c = true -> elt a c = true).
  Context (tot : forall a b, elt a b = false -> elt b a = false -> a = b).
  Notation sorted := (StronglySorted (fun a b => elt a b = true)).

  Lemma at_put m k s k' : at_node (put_node (E:=E) m k s) k' = if (k' =? k)%Z then s else at_node m k'.
  Proof.
    induction m as [|[k0 s0] m IH]; cbn; [reflexivity|].
    destruct (Z.eqb_spec k k0) as [->|N]; cbn.
    - destruct (Z.eqb_spec k' k0); reflexivity.
    - destruct (Z.eqb_spec k' k0) as [->|N']; [|exact IH].
      destruct (Z.eqb_spec k0 k); [congruence|reflexivity].
  Qed.

  Lemma oinsert_in e s x : In x (oinsert elt e s) <-> x = e \/ In x s.
  Proof.
    induction s as [|y s IH]; cbn; [intuition|].
    destruct (elt e y) eqn:E1; cbn; [intuition|].
    destruct (elt y e) eqn:E2; cbn; [rewrite IH; intuition|].
    rewrite (tot e y E1 E2). intuition.
  Qed.
  Lemma oinsert_sorted e s : sorted s -> sorted (oinsert elt e s).
  Proof.
    induction 1 as [|y s S IH F]; cbn; [repeat constructor|].
    destruct (elt e y) eqn:E1.
    - constructor; [constructor; auto|]. constructor; auto.
      eapply Forall_impl; [|exact F]. intros z; apply tra; auto.
    - destruct (elt y e) eqn:E2; [|constructor; auto].
      constructor; auto. apply Forall_forall. intros z Hz. apply oinsert_in in Hz as [->|Hz]; auto.
      rewrite Forall_forall in F; auto.
  Qed.
  Lemma keyeq_iff a b : keyeq elt a b = true <-> a = b.
  Proof.
    unfold keyeq. rewrite andb_true_iff, !negb_true_iff. split.
    - intros [H1 H2]; auto.
    - intros ->; auto.
  Qed.
  Lemma oerase_in e s x : In x (oerase elt e s) <-> In x s /\ x <> e.
  Proof.
    unfold oerase. rewrite filter_In, negb_true_iff. split; intros [H1 H2]; split; auto.
    - intros ->. rewrite (proj2 (keyeq_iff e e) eq_refl) in H2. discriminate.
    - destruct (keyeq elt e x) eqn:K; auto. apply keyeq_iff in K. congruence.
  Qed.
  Lemma filter_sorted (f : E -> bool) s : sorted s -> sorted (filter f s).
  Proof.
    induction 1 as [|y s S IH F]; cbn; [constructor|]. destruct (f y); auto.
    constructor; auto. rewrite Forall_forall in *. intros z Hz. apply filter_In in Hz as [Hz _]; auto.
  Qed.
  Lemma oerase_sorted e s : sorted s -> sorted (oerase elt e s).
  Proof. apply filter_sorted. Qed.

  Definition Inv (m : n2e) (live : E -> Prop) : Prop := forall k,
    sorted (at_node m k) /\ forall e, In e (at_node m k) <-> live e /\ inc ends e k.

  Lemma Inv_ext m (P Q : E -> Prop) : Inv m P -> (forall e, P e <-> Q e) -> Inv m Q.
  Proof. intros H PQ k. destruct (H k) as [S I]. split; auto. intros e. rewrite I, PQ. reflexivity. Qed.

  Lemma add_inv m live e : Inv m live -> Inv (add_edge elt ends m e) (fun x => x = e \/ live x).
  Proof.
    intros H k. unfold add_edge. rewrite !at_put.
    destruct (H k) as [S Hk].
    destruct (Z.eqb_spec k (snd (ends e))) as [K2|K2].
    - subst k. rewrite (Z.eqb_sym (snd _)). destruct (Z.eqb_spec (fst (ends e)) (snd (ends e))) as [K1|K1].
      + rewrite K1. split.
        * repeat apply oinsert_sorted; auto.
        * intros x. rewrite !oinsert_in, Hk. unfold inc.
          split; [intros [->|[->|?]]; intuition|intros [[->|?] ?]; intuition].
      + split; [apply oinsert_sorted; auto|]. intros x. rewrite oinsert_in, Hk. unfold inc.
        split; [intros [->|?]; intuition|intros [[->|?] ?]; intuition].
    - destruct (Z.eqb_spec k (fst (ends e))) as [K1|K1].
      + subst k. split; [apply oinsert_sorted; auto|]. intros x. rewrite oinsert_in, Hk. unfold inc.
        split; [intros [->|?]; intuition|intros [[->|?] ?]; intuition].
      + split; auto. intros x. rewrite Hk. unfold inc. split; [intuition|].
        intros [[->|?] [?|?]]; try congruence; auto.
  Qed.

  Lemma del_inv m live e : Inv m live -> Inv (del_edge elt ends m e) (fun x => live x /\ x <> e).
  Proof.
    intros H k. unfold del_edge. rewrite !at_put. destruct (H k) as [S Hk].
    destruct (Z.eqb_spec k (snd (ends e))) as [K2|K2].
    - subst k. rewrite (Z.eqb_sym (snd _)). destruct (Z.eqb_spec (fst (ends e)) (snd (ends e))) as [K1|K1].
      + rewrite K1. split.
        * repeat apply oerase_sorted; auto.
        * intros x. rewrite !oerase_in, Hk. tauto.
      + split; [apply oerase_sorted; auto|]. intros x. rewrite oerase_in, Hk. tauto.
    - destruct (Z.eqb_spec k (fst (ends e))) as [K1|K1].
      + subst k. split; [apply oerase_sorted; auto|]. intros x. rewrite oerase_in, Hk. tauto.
      + split; auto. intros x. rewrite Hk. unfold inc. split; [|tauto].
        intros [L [I|I]]; split; auto; split; auto; intros ->; congruence.
  Qed.

  Lemma build_inv es : Inv (fold_left (add_edge elt ends) es []) (fun x => In x es).
  Proof.
    assert (G : forall es m (live : E -> Prop), Inv m live ->
      Inv (fold_left (add_edge elt ends) es m) (fun x => In x es \/ live x)).
    { induction es0 as [|e t IH]; intros m live H; cbn [fold_left].
      - eapply Inv_ext; [exact H|]. cbn; tauto.
      - eapply Inv_ext; [apply IH; apply add_inv; exact H|]. cbn. intuition. }
    eapply Inv_ext; [apply (G es [] (fun _ => False))|cbn; tauto].
    intros k; cbn; split; [constructor|intros; tauto].
  Qed.

  Lemma joins_next e a b : joins ends e a b ->
    (if (fst (ends e) =? a)%Z then snd (ends e) else fst (ends e)) = b.
  Proof.
    intros [-> | ->]; cbn; [rewrite Z.eqb_refl; auto|].
    destruct (Z.eqb_spec b a); congruence.
  Qed.

  Lemma walk_step n m live a acc e b : Inv m live -> live e -> joins ends e a b ->
    (forall x, live x -> inc ends x a -> x = e \/ elt e x = true) ->
    walk elt ends (S n) m a acc = walk elt ends n (del_edge elt ends m e) b (acc ++ [e]).
  Proof.
    intros H Le J Min. cbn [walk]. destruct (H a) as [S Ha].
    assert (Ie : In e (at_node m a)). { apply Ha. split; auto. apply (joins_inc _ _ _ _ _ J); auto. }
    destruct (at_node m a) as [|x t] eqn:A; [destruct Ie|].
    assert (x = e) as ->.
    { destruct (proj1 (Ha x) (or_introl eq_refl)) as [Lx Ix].
      destruct (Min x Lx Ix) as [->|Lt]; auto. destruct Ie as [->|Ie]; auto.
      inversion S; subst. rewrite Forall_forall in H3. specialize (H3 e Ie).
      pose proof (tra _ _ _ Lt H3) as X. rewrite irr in X; discriminate. }
    rewrite (joins_next e a b J). reflexivity.
  Qed.

  Lemma walk_nice es : forall a m live acc, Inv m live -> (forall x, live x <-> In x es) ->
    nice ends a es -> NoDup es -> walk elt ends (length es) m a acc = Ok (acc ++ es).
  Proof.
    induction es as [|e t IH]; intros a m live acc H L N ND.
    - cbn. rewrite app_nil_r. reflexivity.
    - destruct N as (b & J & Nt & N). inversion ND; subst. cbn [length].
      rewrite (walk_step _ m live a acc e b H); auto.
      + rewrite (IH b _ (fun x => live x /\ x <> e)); auto.
        * rewrite <- app_assoc. reflexivity.
        * apply del_inv; auto.
        * intros x. rewrite L. cbn. split; [intuition congruence|]. intros I. split; auto. intros ->; contradiction.
      + apply L; left; auto.
      + intros x Lx Ix. apply L in Lx as [->|It]; auto. exfalso; eapply Nt; eauto.
  Qed.
End WalkP.

Lemma last_app {A} (l1 l2 : list A) a : last (l1 ++ l2) a = last l2 (last l1 a).
Proof.
  revert a; induction l1 as [|b l1 IH]; intros a; [reflexivity|].
  cbn [app]. rewrite !last_cons. apply IH.
Qed.
Lemma last_rev_removelast {A} (l : list A) b : last (rev (removelast (b :: l))) (last l b) = b.
Proof.
  destruct l as [|c l]; [reflexivity|].
  change (removelast (b :: c :: l)) with (b :: removelast (c :: l)). cbn [rev]. apply last_last.
Qed.

Section Cyc.
  Context {E : Type} (ends : E -> Z * Z).
  Notation route := (route ends). Notation joins := (joins ends).

  (* a cycle can be started at any of its edges, in the direction of that edge *)
  Lemma cycle_from es e : cycle ends es -> In e es ->
    exists t ns, Permutation es (e :: t) /\ route (snd (ends e)) t ns /\
      last ns (snd (ends e)) = fst (ends e) /\ NoDup (snd (ends e) :: ns).
  Proof.
    intros (a & ns & R & C & N) I. apply in_split in I as (l1 & l2 & ->).
    apply route_app in R as (n1 & n2 & -> & R1 & R2).
    rewrite last_app in C. destruct n2 as [|b n2]; [destruct R2|]. destruct R2 as [J R2].
    rewrite last_cons in C. set (c := last n1 a) in *.
    assert (P : Permutation (l1 ++ e :: l2) (e :: l2 ++ l1)).
    { rewrite app_comm_cons. apply Permutation_app_comm. }
    assert (R : route b (l2 ++ l1) (n2 ++ n1)).
    { apply route_app. exists n2, n1. rewrite C. auto. }
    assert (L : last (n2 ++ n1) b = c). { rewrite last_app, C. reflexivity. }
    assert (N' : NoDup (b :: n2 ++ n1)).
    { eapply Permutation_NoDup; [|exact N]. rewrite app_comm_cons. apply Permutation_app_comm. }
    destruct J as [J|J]; rewrite J; cbn [fst snd].
    - exists (l2 ++ l1), (n2 ++ n1). auto.
    - exists (rev (l2 ++ l1)), (rev (removelast (b :: n2 ++ n1))). split.
      { rewrite P. constructor. apply Permutation_rev. }
      split. { apply (route_rev _ _ _ _) in R. rewrite L in R. exact R. }
      split. { rewrite <- L. apply last_rev_removelast. }
      eapply Permutation_NoDup; [|exact N'].
      etransitivity; [apply (removelast_perm (n2 ++ n1) b)|]. rewrite L.
      etransitivity; [apply Permutation_app_comm|]. constructor. apply Permutation_rev.
  Qed.
End Cyc.

(* ---- use counts ---- *)
Lemma use_count_occ edges k :
  use_count edges k = count_occ Z.eq_dec (flat_map (fun e => [fst e; snd e]) edges) k.
Proof.
  unfold use_count. induction (flat_map _ edges) as [|x l IH]; [reflexivity|].
  cbn [filter count_occ]. destruct (Z.eqb_spec k x) as [->|N].
  - destruct (Z.eq_dec x x); [|congruence]. cbn [length]. lia.
  - destruct (Z.eq_dec x k); [congruence|]. auto.
Qed.
Lemma count_occ_perm (l l' : list Z) k : Permutation l l' -> count_occ Z.eq_dec l k = count_occ Z.eq_dec l' k.
Proof. intros P; revert k. apply Permutation_count_occ; auto. Qed.
Lemma map_nth_seq {A} (l : list A) d : map (fun i => nth i l d) (seq 0 (length l)) = l.
Proof.
  apply (nth_ext _ _ d d).
  - rewrite map_length, seq_length. reflexivity.
  - intros n Hn. rewrite map_length, seq_length in Hn.
    rewrite (nth_indep _ d (nth 0 l d)) by (rewrite map_length, seq_length; auto).
    rewrite (map_nth (fun i => nth i l d)), seq_nth by auto. reflexivity.
Qed.
Lemma flat_map_map {A B C} (f : B -> list C) (g : A -> B) l : flat_map f (map g l) = flat_map (fun x => f (g x)) l.
Proof. induction l; cbn; congruence. Qed.

Lemma use_route_gen {E} (ends : E -> Z * Z) es edges a ns k :
  Permutation (map ends es) edges -> route ends a es ns ->
  use_count edges k = count_occ Z.eq_dec (removelast (a :: ns)) k + count_occ Z.eq_dec ns k.
Proof.
  intros P R. rewrite use_count_occ, <- count_occ_app.
  apply count_occ_perm. rewrite <- (route_ends _ _ _ _ R). rewrite <- P.
  rewrite flat_map_map. reflexivity.
Qed.
Lemma count_nodup (l : list Z) k : NoDup l -> count_occ Z.eq_dec l k = if in_dec Z.eq_dec k l then 1 else 0.
Proof.
  intros N. destruct (in_dec Z.eq_dec k l) as [I|I].
  - apply (proj1 (NoDup_count_occ' Z.eq_dec l) N); auto.
  - apply count_occ_not_In; auto.
Qed.
Lemma count_removelast a ns k : NoDup (a :: ns) \/ (last ns a = a /\ NoDup ns) ->
  count_occ Z.eq_dec (removelast (a :: ns)) k + (if Z.eq_dec (last ns a) k then 1 else 0)
  = count_occ Z.eq_dec (a :: ns) k.
Proof.
  intros _. rewrite (count_occ_perm _ _ k (removelast_perm ns a)), count_occ_app. cbn.
  destruct (Z.eq_dec (last ns a) k); lia.
Qed.
Lemma use_cycle {E} (ends : E -> Z * Z) es edges a ns k :
  Permutation (map ends es) edges -> route ends a es ns -> last ns a = a -> NoDup ns ->
  use_count edges k = if in_dec Z.eq_dec k ns then 2 else 0.
Proof.
  intros P R C N. rewrite (use_route_gen ends es edges a ns k P R).
  pose proof (count_removelast a ns k (or_intror (conj C N))) as H. rewrite C in H. cbn [count_occ] in H.
  rewrite (count_nodup ns k N) in *. destruct (Z.eq_dec a k), (in_dec Z.eq_dec k ns); lia.
Qed.
Lemma use_path {E} (ends : E -> Z * Z) es edges a ns k :
  Permutation (map ends es) edges -> route ends a es ns -> NoDup (a :: ns) -> ns <> [] ->
  use_count edges k = if in_dec Z.eq_dec k (a :: ns)
                      then if Z.eq_dec k a then 1 else if Z.eq_dec k (last ns a) then 1 else 2 else 0.
Proof.
  intros P R N Ne. rewrite (use_route_gen ends es edges a ns k P R).
  pose proof (count_removelast a ns k (or_introl N)) as H.
  inversion N; subst.
  assert (La : last ns a <> a).
  { intros X. destruct ns as [|b ns]; [congruence|]. rewrite last_cons in X. apply H2. rewrite <- X. apply last_in. }
  assert (Li : In (last ns a) (a :: ns)) by apply last_in.
  rewrite (count_nodup (a :: ns) k N) in H. rewrite (count_nodup ns k H3).
  destruct (in_dec Z.eq_dec k (a :: ns)) as [I|I], (in_dec Z.eq_dec k ns) as [I'|I'],
    (Z.eq_dec k a), (Z.eq_dec (last ns a) k), (Z.eq_dec k (last ns a)); try lia;
    try (exfalso; cbn in *; intuition congruence).
Qed.
