(* Proofs about simplifying the surface of a solid: dropping unused points, and the whole routine. *)
From Coq Require Import QArith Qabs Lqa Permutation Sorted.
From Verif Require Import Base BaseFacts Rank Plane PLCSpec HashModel HashSpec SimplifyModel SimplifyProofs3 SimplifyProofs4 Simp3Model Simp3Spec Simp3Proofs Simp3Proofs2 Simp3Proofs4 Simp3Proofs5.
Local Open Scope nat_scope.

Section Mask.
Context (keep : nat -> bool) (n : nat).
Lemma compact3_ok mask pts : length mask = n -> 3 * n <= length pts -> (forall k, k < n -> nth_error mask k = Some (if keep k then Z.of_nat (rank keep k) else (-1)%Z)) ->
  exists pts', compact3 mask pts = Ok pts' /\ length pts' = length pts /\
    forall k, k < n -> keep k = true -> forall c, c < 3 -> nth_error pts' (3 * rank keep k + c) = nth_error pts (3 * k + c).
Proof.
  intros L Lp H. unfold compact3. rewrite L.
  destruct (mfold_seq (fun pts i =>
      do m <- get mask i;
      if negb (m =? -1)%Z then
        do _ <- assert (m <=? Z.of_nat i)%Z;
        if (m <? 0)%Z then UB else
        do x <- get pts (3 * i); do pts <- set pts (3 * Z.to_nat m) x;
        do y <- get pts (3 * i + 1); do pts <- set pts (3 * Z.to_nat m + 1) y;
        do z <- get pts (3 * i + 2); set pts (3 * Z.to_nat m + 2) z
      else Ok pts)
     (fun i p => length p = length pts /\ (forall k, k < i -> keep k = true -> forall c, c < 3 -> nth_error p (3 * rank keep k + c) = nth_error pts (3 * k + c)) /\
        forall j, 3 * i <= j -> nth_error p j = nth_error pts j) n pts) as (p & E & Lq & N & _).
  - split; auto. split; [intros; lia|auto].
  - intros k p K (Lq & N1 & N2). rewrite (proj2 (get_ok _ _ _) (H k K)). cbn [bind]. destruct (keep k) eqn:Kk.
    + pose proof (rank_bound keep k) as R. destruct (Z.eqb_spec (Z.of_nat (rank keep k)) (-1)); [lia|]. cbn [negb]. destruct (Z.leb_spec (Z.of_nat (rank keep k)) (Z.of_nat k)); [|lia]. cbn [assert bind].
      destruct (Z.ltb_spec (Z.of_nat (rank keep k)) 0); [lia|]. rewrite Nat2Z.id. set (r := rank keep k) in *.
      destruct (nth_error_ex pts (3 * k)) as [x Ex]; [lia|]. destruct (nth_error_ex pts (3 * k + 1)) as [y Ey]; [lia|]. destruct (nth_error_ex pts (3 * k + 2)) as [z Ez]; [lia|].
      rewrite (proj2 (get_ok p (3 * k) x)) by (rewrite N2; auto; lia). cbn [bind]. rewrite set_lt by lia. cbn [bind].
      rewrite (proj2 (get_ok _ (3 * k + 1) y)) by (rewrite upd_other by lia; rewrite N2; auto; lia). cbn [bind]. rewrite set_lt by (rewrite upd_length; lia). cbn [bind].
      rewrite (proj2 (get_ok _ (3 * k + 2) z)) by (rewrite !upd_other by lia; rewrite N2; auto; lia). cbn [bind]. rewrite set_lt by (rewrite !upd_length; lia). eexists. split; [reflexivity|].
      rewrite !upd_length. split; auto. split.
      * intros j J Kj c C. destruct (Nat.eq_dec j k) as [->|Nj].
        -- fold r. destruct c as [|[|[|c]]]; [| | |lia].
           ++ rewrite !Nat.add_0_r. rewrite !upd_other by lia. rewrite upd_same by lia. auto.
           ++ rewrite upd_other by lia. rewrite upd_same by (rewrite upd_length; lia). auto.
           ++ rewrite upd_same by (rewrite !upd_length; lia). auto.
        -- assert (Lj : rank keep j < r) by (apply rank_lt; auto; lia). rewrite !upd_other by lia. apply N1; auto. lia.
      * intros j J. rewrite !upd_other by lia. apply N2. lia.
    + cbn [Z.eqb negb]. exists p. split; auto. split; auto. split; [|intros; apply N2; lia].
      intros j J Kj. destruct (Nat.eq_dec j k) as [->|Nj]; [congruence|]. apply N1; auto. lia.
  - exists p. auto.
Qed.
End Mask.
Lemma drop3_ok pts fs : (forall f k, In f fs -> In k f -> k < length pts / 3) -> exists pts',
  (do mask <- used_mask (length pts / 3) fs; do (mask, k) <- number_mask mask; do pts <- compact3 mask pts; do fs <- renumber mask fs; Ok (firstn (3 * k) pts, fs))
    = Ok (pts', map (map (rank (keepk fs))) fs) /\ length pts' = 3 * rank (keepk fs) (length pts / 3) /\
  forall f k, In f fs -> In k f -> pos3 pts' (rank (keepk fs) k) = pos3 pts k /\ rank (keepk fs) k < rank (keepk fs) (length pts / 3).
Proof.
  intros H. set (n := length pts / 3). assert (Ln : 3 * n <= length pts) by (apply Nat.mul_div_le; lia).
  destruct (used_mask_ok n fs H) as (m1 & E1 & L1 & N1). destruct (number_ok (keepk fs) n m1 L1 N1) as (m2 & E2 & L2 & N2). destruct (compact3_ok (keepk fs) n m2 pts L2 Ln N2) as (p & E3 & L3 & N3).
  assert (Kp : forall f k, In f fs -> In k f -> k < n /\ keepk fs k = true). { intros f k I J. split; [eapply H; eauto|]. apply keepk_in. eauto. }
  pose proof (rank_bound (keepk fs) n) as RB.
  exists (firstn (3 * rank (keepk fs) n) p). rewrite E1. cbn [bind]. rewrite E2. cbn [bind]. rewrite E3. cbn [bind]. rewrite (renumber_ok (keepk fs) n m2 fs L2 N2 Kp). cbn [bind]. split; auto. split; [rewrite firstn_length; lia|].
  intros f k I J. destruct (Kp f k I J) as [Lk Kk]. assert (Lr : rank (keepk fs) k < rank (keepk fs) n) by (apply rank_lt; auto). split; auto.
  assert (G : forall i j, i < 3 * rank (keepk fs) n -> nth_error p i = nth_error pts j -> nth i (firstn (3 * rank (keepk fs) n) p) 0%Q = nth j pts 0%Q).
  { intros i j Li E. assert (X : nth_error (firstn (3 * rank (keepk fs) n) p) i = nth_error p i). { clear - Li. revert p Li. generalize (3 * rank (keepk fs) n). intros m. revert i. induction m as [|m IH]; intros [|i] [|a p] Li; cbn; auto; try lia. apply IH. lia. }
    rewrite <- X in E. clear - E. destruct (nth_error pts j) as [y|] eqn:Ey; [rewrite (nth_error_nth _ _ 0%Q E), (nth_error_nth _ _ 0%Q Ey); auto|]. apply nth_error_None in E, Ey. rewrite !nth_overflow; auto. }
  pose proof (N3 k Lk Kk 0 ltac:(lia)) as A0. rewrite !Nat.add_0_r in A0. unfold pos3.
  rewrite (G (3 * rank (keepk fs) k) (3 * k)), (G (3 * rank (keepk fs) k + 1) (3 * k + 1)), (G (3 * rank (keepk fs) k + 2) (3 * k + 2)); auto; try lia; apply N3; auto; lia.
Qed.

Section Whole.
Context (points pts : list Q) (same : nat -> nat -> Prop) (imap : list nat) (M : MergedBy 3 points same pts imap).
Context (tol : Q) (facets ims : list (list nat)) (normals : list (option p3)).
Context (HI : mmap (fun f => mmap (get imap) f) facets = Ok ims) (HN : mmap (facet_normal points tol) facets = Ok normals).
Notation rep := (rep3 imap).
Notation fi := (fi imap).
Notation o := (o imap).
Notation nf_ := (length facets).
Lemma ims_len : length ims = nf_.
Proof using HI. apply mmap_inv in HI. symmetry. eapply Forall2_len; eauto. Qed.
Lemma normals_len : length normals = nf_.
Proof using HN. apply mmap_inv in HN. symmetry. eapply Forall2_len; eauto. Qed.
Lemma ims_at g : nth g ims [] = map o (nth g facets []) /\ forall x, In x (nth g facets []) -> x < length imap.
Proof using HI.
  apply mmap_inv in HI. destruct (nth_error facets g) as [f|] eqn:F.
  - destruct (Forall2_nth _ _ _ _ _ HI F) as (im & I & E). rewrite (nth_error_nth _ _ [] F), (nth_error_nth _ _ [] I). apply mmap_inv in E. clear - E. induction E as [|x y f im H E IH]; [split; [reflexivity|intros x []]|].
    apply get_ok in H. destruct IH as [-> IH]. cbn [map]. split; [f_equal; unfold Simp3Proofs5.o; symmetry; apply nth_error_nth; auto|]. intros z [<-|Z]; auto. eapply nth_error_lt; eauto.
  - apply nth_error_None in F. rewrite !nth_overflow; auto; [split; [reflexivity|intros x []]|]. rewrite <- (Forall2_len _ _ _ HI). auto.
Qed.
Lemma ims_node g v : In v (nth g ims []) -> node imap v.
Proof using HI. destruct (ims_at g) as [-> L]. intros I. apply in_map_iff in I. destruct I as (x & <- & I). exists x. auto. Qed.
Lemma ims_lt g v : In v (nth g ims []) -> g < nf_.
Proof using HI. intros I. destruct (Nat.lt_ge_cases g nf_); auto. rewrite nth_overflow in I by (rewrite ims_len; auto). destruct I. Qed.
Lemma normal_at g : g < nf_ -> exists r, nth_error normals g = Some r /\ forall n, HasNormal points tol (nth g facets []) n <-> r = Some n.
Proof using HN.
  intros L. apply mmap_inv in HN. destruct (nth_error_ex facets g L) as [f F]. destruct (Forall2_nth _ _ _ _ _ HN F) as (r & R & E). exists r. split; auto. rewrite (nth_error_nth _ _ [] F). apply normal_ok in E. apply E.
Qed.
Lemma touch_node g h : Touch rep (nth g facets []) (nth h facets []) <-> exists n, In n (nth g ims []) /\ In n (nth h ims []).
Proof using HI.
  destruct (ims_at g) as [-> Lg]. destruct (ims_at h) as [-> Lh]. split.
  - intros (x & y & X & Y & E). apply rep_o in E; auto. exists (o x). split; [apply in_map; auto|]. rewrite E. apply in_map. auto.
  - intros (n & X & Y). apply in_map_iff in X, Y. destruct X as (x & <- & X), Y as (y & E & Y). exists x, y. split; auto. split; auto. apply rep_o; auto.
Qed.
Lemma patch_node e G : In e (patch_edges ims G) -> node imap (fst e) /\ node imap (snd e).
Proof using HI.
  unfold patch_edges. intros I. apply in_flat_map in I. destruct I as (g & _ & I). destruct e as [a b]. apply ring_in_nth in I. destruct I as (i & A & B). cbn. split; eapply ims_node; eapply nth_error_In; eauto.
Qed.
Lemma edges_fe G : edges_of rep facets G = map (fe imap) (patch_edges ims G).
Proof using HI.
  unfold edges_of, patch_edges. induction G as [|g G IH]; [reflexivity|]. cbn [flat_map]. rewrite map_app, IH. f_equal. destruct (ims_at g) as [-> _].
  unfold fe. rewrite <- (ring_map fi (map o (nth g facets []))). rewrite map_map. reflexivity.
Qed.
Lemma new_facet i G nf ni used0 st : i < nf_ -> nth_error normals i = Some (Some ni) -> ginv tol normals ims i ni used0 st -> snd (fst st) = G -> outline points pts tol ims G (nth i facets []) = Ok nf ->
  NewFacet points tol rep facets i G (map fi nf) /\ forall c, In c nf -> node imap c.
Proof using M HI HN.
  intros Li Ni I EG H. apply outline_ok in H. cbv zeta in H. destruct H as (vs & cs0 & U & V & C & L3 & Ec & T).
  assert (Vn : forall v, In v vs -> node imap v). { intros v X. destruct (V v X) as (g & _ & Y). eapply ims_node; eauto. }
  destruct (corners_fe points pts same imap M tol vs cs0 Vn C) as [C' Cin]. assert (Cn : forall c, In c cs0 -> node imap c) by auto.
  assert (Cn' : forall c, In c nf -> node imap c). { intros c X. apply Cn. destruct Ec as [->| ->]; auto. apply in_rev. auto. }
  assert (Hi : HasNormal points tol (nth i facets []) ni). { destruct (normal_at i Li) as (r & R & E). apply E. congruence. }
  split; auto. constructor.
  - constructor.
    + subst G. apply (g_in _ _ _ _ _ _ _ I).
    + intros g X. subst G. destruct (g_new _ _ _ _ _ _ _ I g X) as [_ [->|(m & Em & F)]]; [exists ni, ni; auto|].
      assert (Lg : g < nf_) by (rewrite <- normals_len; eapply nth_error_lt; eauto). destruct (normal_at g Lg) as (r & R & E). exists ni, m. split; auto. split; auto. apply E. congruence.
    + intros g X. subst G. pose proof (g_link _ _ _ _ _ _ _ I g X) as K. clear X. induction K as [|g h n K IH Hh N1 N2]; [constructor|]. eapply joined_next; eauto. apply touch_node. eauto.
  - exists (map fi vs), (map fi cs0). split; [|split; auto; split; [rewrite map_length; auto|split]].
    + intros a b. rewrite edges_fe. apply outline_fe; auto. intros e X. eapply patch_node; eauto.
    + destruct Ec as [->| ->]; auto. right. rewrite map_rev. auto.
    + cbv zeta. rewrite <- map_rev. assert (Rn : forall c, In c (rev cs0) -> node imap c) by (intros c X; apply Cn, in_rev; auto).
      rewrite <- !(turns_fe points pts same imap M) by auto. auto.
Qed.

Record inv (k : nat) (st : list bool * list (list nat)) (P : list (nat * list nat)) : Prop := {
  i_len : length (fst st) = nf_;
  i_used : forall g, g < nf_ -> nth_error (fst st) g = Some true <-> nth_error normals g = Some None \/ In g (concat (map snd P));
  i_nodup : NoDup (concat (map snd P));
  i_range : forall p g, In p P -> In g (snd p) -> exists m, nth_error normals g = Some (Some m);
  i_sorted : StronglySorted lt (map fst P);
  i_below : forall p, In p P -> fst p < k;
  i_all : forall g, g < k -> nth_error (fst st) g = Some true;
  i_facets : Forall2 (fun p nf => NewFacet points tol rep facets (fst p) (snd p) (map fi nf) /\ forall c, In c nf -> node imap c) P (snd st);
  i_merged : forall a p g ni ng, nth_error P a = Some p -> g < nf_ ->
      HasNormal points tol (nth (fst p) facets []) ni -> HasNormal points tol (nth g facets []) ng -> Facing tol ni ng ->
      Touch rep (nth (fst p) facets []) (nth g facets []) -> exists b q, b <= a /\ nth_error P b = Some q /\ In g (snd q) }.

Lemma in_concat_snd (P : list (nat * list nat)) g : In g (concat (map snd P)) <-> exists b q, nth_error P b = Some q /\ In g (snd q).
Proof using.
  rewrite in_concat. split.
  - intros (l & I & J). apply in_map_iff in I. destruct I as (q & <- & I). apply In_nth_error in I. destruct I as [b B]. eauto.
  - intros (b & q & B & J). exists (snd q). split; auto. apply in_map. eapply nth_error_In; eauto.
Qed.
Lemma nodup_app {A} (l l' : list A) : NoDup l -> NoDup l' -> (forall x, In x l -> ~ In x l') -> NoDup (l ++ l').
Proof using. induction 1 as [|x l Nx N IH]; intros N' D; auto. cbn. constructor; [|apply IH; auto; intros y Y; apply D; right; auto]. intros I. apply in_app_or in I. destruct I as [I|I]; auto. apply (D x (or_introl eq_refl) I). Qed.
Lemma sorted_snoc l k : StronglySorted lt l -> (forall x, In x l -> x < k) -> StronglySorted lt (l ++ [k]).
Proof using.
  induction 1 as [|a l S IH F]; intros H; cbn; [repeat constructor|]. constructor; [apply IH; intros; apply H; right; auto|]. apply Forall_forall. intros x X. apply in_app_or in X. rewrite Forall_forall in F.
  destruct X as [X|[<-|[]]]; auto. apply H. left; auto.
Qed.
Lemma step_ok k st P st' : k < nf_ -> inv k st P ->
  (let '(used, fs) := st in do u <- get used k;
      if u : bool then Ok (used, fs) else
      do ni <- get normals k;
      match ni with
      | None => Ok (used, fs)
      | Some ni =>
          do (used, group, _) <- glue tol normals ims (length pts / 3) k ni used;
          do f <- get facets k;
          do nf <- outline points pts tol ims group f;
          Ok (used, fs ++ [nf])
      end) = Ok st' -> exists P', inv (S k) st' P'.
Proof using M HI HN.
  destruct st as [used fs]. intros Lk I H. apply bind_ok in H as (u & U & H). apply get_ok in U. destruct u.
  { inversion H; subst st'. exists P. destruct I as [I1 I2 I3 I4 I5 I6 I7 I8 I9]. apply Build_inv; auto; [intros p Ip; specialize (I6 p Ip); lia|]. intros g Lg. destruct (Nat.eq_dec g k) as [->|]; auto. apply I7. lia. }
  apply bind_ok in H as (ni & Ni & H). apply get_ok in Ni. destruct ni as [ni|].
  2:{ exfalso. assert (X : nth_error used k = Some true) by (apply (i_used _ _ _ I); auto). congruence. }
  apply bind_ok in H as ([[used' G] nodes] & Hg & H). apply bind_ok in H as (f & F & H). apply get_ok in F. apply bind_ok in H as (nf & O & H). inversion H; subst st'. clear H.
  assert (Lu : length used = length ims) by (rewrite ims_len; apply (i_len _ _ _ I)).
  apply glue_ok in Hg; auto; [|rewrite normals_len, ims_len; auto|intros g n _ X; apply ims_node in X; apply (node_pos points pts same imap M) in X; apply X]. destruct Hg as [J K].
  assert (Gu : forall g, In g G -> nth_error used g = Some false) by (intros g X; apply (g_new _ _ _ _ _ _ _ J g X)).
  assert (Gl : forall g, In g G -> g < nf_) by (intros g X; rewrite <- (i_len _ _ _ I); apply (nth_error_lt _ _ _ (Gu g X))).
  exists (P ++ [(k, G)]). assert (Ec : concat (map snd (P ++ [(k, G)])) = concat (map snd P) ++ G) by (rewrite map_app, concat_app; cbn; rewrite app_nil_r; auto).
  assert (Us : forall g, g < nf_ -> nth_error used' g = Some true <-> nth_error normals g = Some None \/ In g (concat (map snd (P ++ [(k, G)])))).
  { intros g Lg. rewrite (g_used _ _ _ _ _ _ _ J g). cbn [fst snd]. rewrite (i_used _ _ _ I g Lg). cbn [fst]. rewrite Ec, in_app_iff. tauto. }
  apply Build_inv; cbn [fst snd]; auto.
  - rewrite <- ims_len. apply (g_len _ _ _ _ _ _ _ J).
  - rewrite Ec. apply nodup_app; [apply (i_nodup _ _ _ I)|apply (g_nodup _ _ _ _ _ _ _ J)|]. intros g X Y. pose proof (Gu g Y) as Z. assert (nth_error used g = Some true) by (apply (i_used _ _ _ I); auto). congruence.
  - intros p g X Y. apply in_app_or in X. destruct X as [X|[<-|[]]]; [apply (i_range _ _ _ I p g X Y)|]. cbn [snd] in Y. destruct (g_new _ _ _ _ _ _ _ J g Y) as [_ [->|(m & Em & _)]]; eauto.
  - rewrite map_app. apply sorted_snoc; [apply (i_sorted _ _ _ I)|]. intros x X. apply in_map_iff in X. destruct X as (p & <- & X). apply (i_below _ _ _ I p X).
  - intros p X. apply in_app_or in X. destruct X as [X|[<-|[]]]; [pose proof (i_below _ _ _ I p X); lia|cbn; lia].
  - intros g Lg. apply (g_used _ _ _ _ _ _ _ J). cbn [fst snd]. destruct (Nat.eq_dec g k) as [->|]; [right; apply (g_in _ _ _ _ _ _ _ J)|]. left. apply (i_all _ _ _ I). lia.
  - apply Forall2_app; [apply (i_facets _ _ _ I)|]. constructor; [|constructor]. cbn [fst snd]. rewrite <- (nth_error_nth _ _ [] F) in O. eapply new_facet; eauto.
  - intros a p g n1 n2 Pa Lg H1 H2 Fc T. destruct (Nat.lt_ge_cases a (length P)) as [La|La].
    + rewrite nth_error_app1 in Pa by auto. destruct (i_merged _ _ _ I a p g n1 n2 Pa Lg H1 H2 Fc T) as (b & q & B & Q & X). exists b, q. split; auto. split; auto. rewrite nth_error_app1; auto. eapply nth_error_lt; eauto.
    + rewrite nth_error_app2 in Pa by auto. destruct (a - length P) as [|x] eqn:Ea; [|destruct x; discriminate]. cbn in Pa. inversion Pa; subst p. cbn [fst] in H1, T.
      apply touch_node in T. destruct T as (n & T1 & T2). destruct (normal_at k Lk) as (r & R & E). apply E in H1. assert (n1 = ni) as -> by congruence.
      destruct (normal_at g Lg) as (r' & R' & E'). apply E' in H2. subst r'. assert (X : nth_error used' g = Some true) by (apply (K g n2 n); auto; rewrite ims_len; auto).
      apply Us in X; auto. destruct X as [X|X]; [congruence|]. apply in_concat_snd in X. destruct X as (b & q & B & Q). exists b, q. split; auto. apply nth_error_lt in B. rewrite app_length in B. cbn in B. lia.
Qed.

Theorem new_facets_ok fs : new_facets points pts tol facets ims normals = Ok fs -> exists used P, inv nf_ (used, fs) P.
Proof using M HI HN.
  unfold new_facets. intros H. apply bind_ok in H as ([used fs'] & F & H). inversion H; subst fs'. clear H. exists used.
  set (step := fun '(used, fs) i =>
      do u <- get used i;
      if u : bool then Ok (used, fs) else
      do ni <- get normals i;
      match ni with
      | None => Ok (used, fs)
      | Some ni =>
          do (used, group, _) <- glue tol normals ims (length pts / 3) i ni used;
          do f <- get facets i;
          do nf <- outline points pts tol ims group f;
          Ok (used, fs ++ [nf])
      end) in F.
  assert (G : forall m k st P st', k + m = nf_ -> inv k st P -> mfold step (seq k m) st = Ok st' -> exists P', inv nf_ st' P').
  { induction m as [|m IH]; intros k st P st' E I X; cbn [seq mfold] in X.
    - inversion X; subst st'. replace nf_ with k by lia. eauto.
    - apply bind_ok in X as (st1 & X1 & X). destruct (step_ok k st P st1) as [P1 I1]; auto; [lia|destruct st; exact X1|]. eapply (IH (S k)); eauto. lia. }
  apply (G nf_ 0 (map (fun n => match n with None => true | Some _ => false end) normals, []) [] (used, fs)); auto.
  apply Build_inv; cbn [fst snd map concat].
  - rewrite map_length. apply normals_len.
  - intros g Lg. rewrite nth_error_map. destruct (normal_at g Lg) as (r & R & _). rewrite R. destruct r; cbn; split; intros X; try discriminate; auto. destruct X as [X|[]]; discriminate.
  - constructor.
  - intros p g [].
  - constructor.
  - intros p [].
  - intros; lia.
  - constructor.
  - intros a p g n1 n2 X. destruct a; discriminate.
Qed.

Theorem simplified3_ok fs r : new_facets points pts tol facets ims normals = Ok fs ->
  (do mask <- used_mask (length pts / 3) fs; do (mask, k) <- number_mask mask; do pts <- compact3 mask pts; do fs <- renumber mask fs; Ok (firstn (3 * k) pts, fs)) = Ok r ->
  exists P, Simplified3 points tol rep facets (fst r) (snd r) P /\ length (snd r) = length fs.
Proof using M HI HN.
  intros H D. destruct (new_facets_ok fs H) as (used & P & I). exists P.
  assert (Nd : forall f k, In f fs -> In k f -> node imap k). { intros f k X Y. destruct (Forall2_in_r _ _ _ _ (i_facets _ _ _ I) X) as (p & _ & [_ Z]). auto. }
  assert (Lt : forall f k, In f fs -> In k f -> k < length pts / 3) by (intros f k X Y; apply (node_pos points pts same imap M); eauto).
  destruct (drop3_ok pts fs Lt) as (pts' & D' & Lp & Dp). rewrite D' in D. apply ok_inj in D. subst r. cbn [fst snd]. clear D'.
  assert (Of : forall k, node imap k -> o (fi k) = k). { intros k (i & Li & <-). apply fi_ok. auto. }
  split; [|apply map_length]. apply Build_Simplified3.
  - intros g Lg Ng. pose proof (i_all _ _ _ I g Lg) as X. apply (i_used _ _ _ I) in X; auto. destruct X as [X|X].
    + exfalso. apply Ng. intros [n Hn]. destruct (normal_at g Lg) as (r & R & E). apply E in Hn. congruence.
    + apply in_concat_snd in X. destruct X as (b & q & B & Q). exists q. split; auto. eapply nth_error_In; eauto.
  - apply (i_nodup _ _ _ I).
  - intros p g X Y. destruct (i_range _ _ _ I p g X Y) as [m Em]. assert (Lg : g < nf_) by (rewrite <- normals_len; eapply nth_error_lt; eauto). split; auto. intros Dg. apply Dg. exists m. destruct (normal_at g Lg) as (r & R & E). apply E. congruence.
  - apply (i_sorted _ _ _ I).
  - apply (i_merged _ _ _ I).
  - exists (map (map fi) fs), (fun c => rank (keepk fs) (o c)).
    assert (In1 : forall cs c, In cs (map (map fi) fs) -> In c cs -> exists f k, In f fs /\ In k f /\ c = fi k /\ node imap k).
    { intros cs c X Y. apply in_map_iff in X. destruct X as (f & <- & X). apply in_map_iff in Y. destruct Y as (k & <- & Y). exists f, k. split; auto. split; auto. split; eauto. }
    split; [|split; [|split; [|split]]].
    + rewrite map_map. apply map_ext_in. intros f X. rewrite map_map. apply map_ext_in. intros k Y. rewrite Of; eauto.
    + pose proof (i_facets _ _ _ I) as Fa. cbn [snd] in Fa. clear - Fa. induction Fa as [|p nf P fs [A _] Fa IH]; cbn; constructor; auto.
    + intros cs c X Y. destruct (In1 cs c X Y) as (f & k & A & B & -> & C). rewrite Of by auto. destruct (Dp f k A B) as [D1 D2]. rewrite Lp. split; [lia|]. rewrite D1. apply (node_pos points pts same imap M). auto.
    + intros c c' cs cs' X Y X' Y' E. destruct (In1 cs c X Y) as (f & k & A & B & -> & C). destruct (In1 cs' c' X' Y') as (f' & k' & A' & B' & -> & C'). rewrite !Of in E by auto. f_equal. apply (rank_inj (keepk fs)); auto; apply keepk_in; eauto.
    + exists (rank (keepk fs) (length pts / 3)). split; auto. intros j J. destruct (rank_onto (keepk fs) j _ J) as (k & Lk & Kk & Rk). apply keepk_in in Kk. destruct Kk as (f & A & B). exists (map fi f), (fi k). split; [apply in_map; auto|]. split; [apply in_map; auto|]. rewrite Of; eauto.
Qed.
End Whole.
Theorem simplify3_ok key facets points xmin xmax tol pts imap same r : uniquePoints key 3 points xmin xmax tol = Ok (pts, imap) -> MergedBy 3 points same pts imap ->
  simplify3 key facets points xmin xmax tol = Ok r -> exists rep P, FirstSame (length points / 3) same rep /\ Simplified3 points tol rep facets (fst r) (snd r) P /\ 4 <= length (snd r).
Proof.
  intros U M H. unfold simplify3 in H. rewrite U in H. cbn [bind] in H. apply bind_ok in H as (ims & HI & H). apply bind_ok in H as (normals & HN & H). apply bind_ok in H as (fs & HF & H). apply bind_ok in H as (u & A & H). apply assert_ok, Nat.leb_le in A.
  destruct (simplified3_ok points pts same imap M tol facets ims normals HI HN fs r HF H) as [P [S L]]. exists (rep3 imap), P. split; [rewrite <- (mb_len _ _ _ _ _ M); apply (rep_first points pts same imap M)|]. split; auto. lia.
Qed.
