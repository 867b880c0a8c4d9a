(* Cleaning edges on several ranks, as a whole. *)
From Verif Require Import Base BaseFacts StdAlg SerializeModel MeshModel MeshSpec MeshProofs MeshProofs2 KeyMapModel MeshEditorModel MeshEditorSpec MeshEditorProofs MeshEditorProofs2 MeshEditorProofs3 MeshEditorProofs4 MeshEditorProofs5 MeshEditorProofs6 MpiModel MpiSpec MpiProofs ExchangeModel ExchangeProofs2 CheckModel CheckProofs DistModel DistProofs SerialDistProofs2 EdgeMaskModel EdgeMaskSpec EdgeMaskProofs EdgeMaskProofs2 EdgeMaskProofs3 EdgeMaskProofs4.
From Coq Require Import Lia Sorted QArith.
Local Open Scope nat_scope.

(* what flags leaves behind *)
Record Flagged (tol : Q) (m : mesh Q) (st : estate) (c2e : list (list nat)) (em col : list nat) (clean : bool) (first : list (nat * nat)) : Prop := {
  fl_run : exists nm, flags 2 tol m = Ok (st, (em, nm, col, clean));
  fl_inv : EInv m st;
  fl_cells : Forall2 (named_cell m st) (cells m) c2e;
  fl_keys : forall k, In k (keys st) -> exists c z a b, In c (cells m) /\ In z c /\ nth_error (faces m) (pid z) = Some [a; b] /\ k = edge_key a b;
  fl_good : GoodCollapses tol m first;
  fl_clean : clean = true <-> first = [];
  fl_chosen : forall k d, In (k, d) first -> exists i, nth_error (keys st) i = Some (edge_key k d);
  fl_len : length em = length (keys st);
  fl_em : forall i v, nth_error em i = Some v ->
       (v = 0 /\ exists k d, In (k, d) first /\ nth_error (keys st) i = Some (edge_key k d)) \/
       (v = 1 /\ ~ exists k d, In (k, d) first /\ nth_error (keys st) i = Some (edge_key k d)) }.

Lemma edge_key_ne a b : a <> b -> fst (edge_key a b) < snd (edge_key a b).
Proof. intros N. destruct (edge_key a b) as [x y] eqn:E. cbn. apply (edge_key_lt a b x y); auto. Qed.
Lemma edge_key_self a b : a < b -> edge_key a b = (a, b).
Proof. intros L. pose proof (edge_key_ne a b ltac:(lia)) as H. destruct (edge_key_or a b) as [E|E]; rewrite E in *; cbn in *; auto. lia. Qed.

Definition pair_dec : forall p q : nat * nat, {p = q} + {p <> q}.
Proof. decide equality; apply Nat.eq_dec. Defined.

Section One.
  Context (tol : Q) (m : mesh Q) (st : estate) (c2e : list (list nat)) (em col : list nat) (clean : bool) (first : list (nat * nat)).
  Hypothesis WF : WellFormed 2 m.
  Hypothesis PL : Planar m.
  Hypothesis FL : Flagged tol m st c2e em col clean first.
  Lemma keys_in a b : In (a, b) (keys st) -> a < b /\ b < numNodes 2 m.
  Proof. intros I. apply In_nth_error in I as [i Hi]. destruct (Kin m PL st (fl_inv _ _ _ _ _ _ _ _ FL) (fl_keys _ _ _ _ _ _ _ _ FL) i a b Hi) as (A & _ & B). auto. Qed.
  Lemma joins_key a b i : Joins (keys st) a b i <-> a <> b /\ nth_error (keys st) i = Some (edge_key a b).
  Proof.
    split.
    - intros [H|H]; destruct (keys_in _ _ (nth_error_In _ _ H)); (split; [lia|]); [rewrite edge_key_self|rewrite edge_key_sym, edge_key_self]; auto.
    - intros [_ H]. destruct (edge_key_or a b) as [E|E]; rewrite E in H; [left|right]; auto.
  Qed.
  Lemma joins_segment a b : (exists i, Joins (keys st) a b i) <-> (exists f, segment m f a b).
  Proof.
    split.
    - intros [i J]. apply joins_key in J as [N H]. destruct (fl_keys _ _ _ _ _ _ _ _ FL _ (nth_error_In _ _ H)) as (c & z & x & y & _ & _ & Hf & E). exists (pid z). eapply key_segment; eauto.
    - intros [f S]. assert (exists ns, nth_error (faces m) f = Some ns) as [ns Hf] by (destruct S; eauto). assert (Lf := nth_error_lt _ _ _ Hf). rewrite <- (wf_fcs _ _ WF) in Lf. destruct (nth_error_ex _ _ Lf) as [fc Hfc].
      destruct (wf_fc _ _ WF _ _ Hfc) as [Le|Le]; (destruct fc as [|z t]; [discriminate|]); destruct (wf_face_cell _ _ WF f _ z Hfc (or_introl eq_refl)) as (c & Hc & Iz);
      (destruct (Forall2_nth _ _ _ _ _ (fl_cells _ _ _ _ _ _ _ _ FL) Hc) as (ids & _ & F); destruct (Forall2_in_l _ _ _ _ F Iz) as (i & _ & x & y & Hx & Hk); rewrite pid_sign_face in Hx; exists i; apply joins_key;
       assert (E : edge_key x y = edge_key a b /\ a <> b) by (destruct (pl_face _ PL _ _ Hx) as (u & v & E1 & N1); injection E1 as <- <-; destruct S as [S|S]; rewrite Hx in S; injection S as -> ->; split; auto; apply edge_key_sym);
       destruct E as [E N]; split; auto; congruence).
  Qed.
  Lemma wants a b : collapses first a b <-> exists i, Joins (keys st) a b i /\ nth_error em i = Some 0.
  Proof.
    assert (H : forall a b, In (a, b) first -> exists i, Joins (keys st) a b i /\ nth_error em i = Some 0).
    { intros x y I. destruct (fl_chosen _ _ _ _ _ _ _ _ FL _ _ I) as [i Hi]. exists i. pose proof (fl_len _ _ _ _ _ _ _ _ FL) as Le. split.
      - apply joins_key. split; auto. intros <-. destruct (keys_in (fst (edge_key x x)) (snd (edge_key x x))) as [A _]; [destruct (edge_key x x); eapply nth_error_In; eauto|]. destruct (edge_key_or x x) as [E|E]; rewrite E in A; cbn in A; lia.
      - destruct (nth_error_ex em i) as [v Hv]; [rewrite Le; eapply nth_error_lt; eauto|]. destruct (fl_em _ _ _ _ _ _ _ _ FL _ _ Hv) as [[-> _]|[_ N]]; auto. exfalso. apply N. eauto. }
    split.
    - intros [I|I]; destruct (H _ _ I) as (i & J & Z); exists i; split; auto. destruct J; [right|left]; auto.
    - intros (i & J & Z). destruct (fl_em _ _ _ _ _ _ _ _ FL _ _ Z) as [[_ (k & d & I & K)]|[X _]]; [|discriminate]. apply joins_key in J as [_ J]. rewrite K in J. injection J as J. apply edge_key_eq in J as [[-> ->]|[-> ->]]; [left|right]; auto.
  Qed.
  Lemma keys_few : length (keys st) <= length (faces m).
  Proof.
    rewrite <- (map_length (fun f => match f with [a; b] => edge_key a b | _ => (0, 0) end) (faces m)). apply NoDup_incl_length; [apply (Knd m st (fl_inv _ _ _ _ _ _ _ _ FL))|].
    intros k I. destruct (fl_keys _ _ _ _ _ _ _ _ FL k I) as (c & z & a & b & _ & _ & Hf & ->). apply in_map_iff. exists [a; b]. split; auto. eapply nth_error_In; eauto.
  Qed.
  (* collapsing only some of the edges *)
  Definition mypiece : piece := mkPiece (numNodes 2 m) (keys st) em (neighborDomains m) (sharedNodes m).
  Lemma some_edges l em' nm' col' clean' prs : Settled mypiece l em' nm' col' clean' prs -> (forall i, nth_error em' i = Some 0 -> nth_error em i = Some 0) -> NoDup l ->
    (forall a b, collapses prs a b <-> exists i, Joins (keys st) a b i /\ nth_error em' i = Some 0) /\
    NoDup (ends (nodup pair_dec prs)).
  Proof.
    intros S Sub Nl. assert (C : forall a b, collapses prs a b <-> exists i, Joins (keys st) a b i /\ nth_error em' i = Some 0).
    { assert (H : forall a b, In (a, b) prs -> exists i, Joins (keys st) a b i /\ nth_error em' i = Some 0).
      { intros a b I. apply (se_pairs _ _ _ _ _ _ _ S) in I as (i & x & y & He & Hz & [[-> ->]|[-> ->]] & _); exists i; (split; [|auto]); [left|right]; auto. }
      intros a b. split.
      - intros [I|I]; destruct (H _ _ I) as (i & J & Z); exists i; split; auto. destruct J; [right|left]; auto.
      - intros (i & J & Z). assert (exists x y, nth_error (keys st) i = Some (x, y) /\ ((x = a /\ y = b) \/ (x = b /\ y = a))) as (x & y & He & O) by (destruct J as [J|J]; eauto 10).
        destruct (keys_in _ _ (nth_error_In _ _ He)) as [Lxy _]. destruct (stayGo l x y) as [k d] eqn:G. apply stayGo_ok in G; auto; [|lia]. assert (I : In (k, d) prs) by (apply (se_pairs _ _ _ _ _ _ _ S); exists i, x, y; auto). destruct G as ([[-> ->]|[-> ->]] & _), O as [[-> ->]|[-> ->]]; [left|right|right|left]; auto. }
    split; auto.
    (* different pairs have no node in common *)
    assert (Wf : forall k d, In (k, d) prs -> collapses first k d) by (intros k d I; apply wants; destruct (proj1 (C k d) (or_introl I)) as (i & J & Z); exists i; split; auto).
    assert (Ne : forall k d, In (k, d) prs -> k <> d) by (intros k d I; destruct (proj1 (C k d) (or_introl I)) as (i & J & _); apply joins_key in J; tauto).
    pose proof (gc_once _ _ _ (fl_good _ _ _ _ _ _ _ _ FL)) as Once.
    assert (Uq : forall x a b, collapses first x a -> collapses first x b -> a = b).
    { assert (G : forall pairs : list (nat * nat), NoDup (ends pairs) -> forall x a b, collapses pairs x a -> collapses pairs x b -> a = b); [|exact (G first Once)].
      clear. induction pairs as [|[u v] t IH]; intros N x a b Ha Hb; [destruct Ha as [[]|[]]|]. cbn in N. inversion N as [|? ? N1 N2]; subst. inversion N2 as [|? ? N3 N4]; subst. cbn in N1.
      assert (In1 : forall y z, collapses t y z -> In y (ends t)) by (intros y z [I|I]; apply ends_in; eauto 10).
      assert (Nv : forall z, ~ collapses t v z) by (intros z Cz; apply N3; eapply In1; eauto). assert (Nu : forall z, ~ collapses t u z) by (intros z Cz; apply N1; right; eapply In1; eauto).
      assert (Cs : forall y z, collapses ((u, v) :: t) y z -> (u = y /\ v = z) \/ (u = z /\ v = y) \/ collapses t y z) by (intros y z [[E|I]|[E|I]]; [injection E as -> ->; auto|right; right; left; auto|injection E as -> ->; auto|right; right; right; auto]).
      destruct (Cs _ _ Ha) as [[<- <-]|[[<- <-]|Ha']], (Cs _ _ Hb) as [[X1 X2]|[[X1 X2]|Hb']]; try congruence; try (exfalso; subst; eapply Nu; eassumption); try (exfalso; subst; eapply Nv; eassumption); try (exfalso; apply N1; left; congruence); apply (IH N4 x); auto. }
    assert (Fn : forall k d k' d', In (k, d) prs -> In (k', d') prs -> (k = k' \/ k = d' \/ d = k' \/ d = d') -> (k, d) = (k', d')).
    { intros k d k' d' I I' O. pose proof (Wf _ _ I) as W. pose proof (Wf _ _ I') as W'. assert (Sy : forall x y, collapses first x y -> collapses first y x) by (intros x y [?|?]; [right|left]; auto).
      assert (O2 : (k = k' /\ d = d') \/ (k = d' /\ d = k')). { destruct O as [-> |[-> |[-> | ->]]].
        - left. split; auto. eapply Uq; eauto.
        - right. split; auto. eapply (Uq d'); eauto.
        - right. split; auto. eapply (Uq k'); eauto.
        - left. split; auto. eapply (Uq d'); eauto. }
      destruct O2 as [[-> ->]|[-> ->]]; auto. exfalso.
      apply (se_pairs _ _ _ _ _ _ _ S) in I as (i & a & b & He & _ & G). apply (se_pairs _ _ _ _ _ _ _ S) in I' as (i' & a' & b' & He' & _ & G'). cbn [pedges mypiece] in He, He'.
      destruct (keys_in _ _ (nth_error_In _ _ He)). destruct (keys_in _ _ (nth_error_In _ _ He')). assert (a' = a /\ b' = b) as [-> ->]. { destruct G as [Q1 _], G' as [Q2 _]. lia. }
      apply stayGo_ok in G; [|auto|lia]. apply stayGo_ok in G'; [|auto|lia]. rewrite G in G'. injection G' as -> _. destruct (stayGo_ok l a b k' k') as [X _]; auto; [lia|]. destruct (proj2 (stayGo_ok l a b k' k' Nl ltac:(lia)) G) as [Q1 _]. lia. }
    assert (ND := NoDup_nodup pair_dec prs). assert (Sb : forall p, In p (nodup pair_dec prs) -> In p prs) by (intros p; apply nodup_In).
    revert ND Sb. generalize (nodup pair_dec prs). induction l0 as [|[k d] t IH]; intros ND Sb; cbn; [constructor|]. inversion ND as [|? ? N1 N2]; subst. specialize (IH N2 (fun p I => Sb p (or_intror I))). assert (I0 := Sb (k, d) (or_introl eq_refl)).
    assert (Out : forall x, x = k \/ x = d -> ~ In x (ends t)). { intros x Ox I. apply ends_in in I as (k' & d' & I & O). apply N1. rewrite (Fn k d k' d' I0 (Sb _ (or_intror I))); auto. lia. }
    constructor; [|constructor; auto]. intros [E|I]; [apply (Ne k d I0); auto|apply (Out k); auto].
  Qed.
End One.

Lemma settled_nodup p l em nm col clean prs : Settled p l em nm col clean prs -> Settled p l em nm col clean (nodup pair_dec prs).
Proof.
  intros S. assert (R : forall x, removed (nodup pair_dec prs) x <-> removed prs x) by (intros x; unfold removed; split; intros (k & I); exists k; apply (nodup_In pair_dec); auto). constructor.
  - intros k d. rewrite nodup_In. apply (se_pairs _ _ _ _ _ _ _ S).
  - apply (se_em _ _ _ _ _ _ _ S).
  - rewrite (se_clean _ _ _ _ _ _ _ S). split; [intros ->; auto|]. intros E. destruct prs as [|p0 t]; auto. assert (In p0 (nodup pair_dec (p0 :: t))) by (apply nodup_In; left; auto). rewrite E in H. destruct H.
  - destruct (se_nm _ _ _ _ _ _ _ S) as [A B]. split; auto. intros x v H. rewrite R. auto.
  - intros C. destruct (se_col _ _ _ _ _ _ _ S C) as [A B]. split; auto. intros x v H. rewrite R, nodup_In. auto.
Qed.
Lemma fate_nodup prs prs' l l' : SameFate prs prs' l l' -> SameFate (nodup pair_dec prs) (nodup pair_dec prs') l l'.
Proof.
  assert (R : forall prs x, removed (nodup pair_dec prs) x <-> removed prs x) by (intros q x; unfold removed; split; intros (k & I); exists k; apply (nodup_In pair_dec); auto).
  intros (A & B & C). split; [|split].
  - intros. rewrite !nodup_In. eapply A; eauto.
  - intros. rewrite !R. eapply B; eauto.
  - intros p x k Hx I. apply nodup_In in I. eauto.
Qed.

Lemma flagged_all tol n m : (0 < tol)%Q -> SharedBorders n m -> exists st c2e em col clean first, forall r, r < n -> Flagged tol (m r) (st r) (c2e r) (em r) (col r) (clean r) (first r).
Proof.
  intros T SB.
  destruct (choose (mkEstate [] [] [], [], [], [], true, []) (fun r '(st, c2e, em, col, clean, first) => Flagged tol (m r) st c2e em col clean first) n) as [f Hf].
  { intros r L. destruct (sb_mesh _ _ SB r L) as (WF & PL & Si). destruct (flags_ok tol (m r) T WF PL Si) as (st & c2e & em & nm & col & clean & pairs & H1 & H2 & H3 & H4 & H5 & H6 & H7 & H8 & _ & _ & H9 & _). exists (st, c2e, em, col, clean, pairs). constructor; eauto. }
  set (st r := fst (fst (fst (fst (fst (f r)))))). set (c2e r := snd (fst (fst (fst (fst (f r)))))). set (em r := snd (fst (fst (fst (f r))))). set (col r := snd (fst (fst (f r)))). set (clean r := snd (fst (f r))). set (first r := snd (f r)).
  assert (FL : forall r, r < n -> Flagged tol (m r) (st r) (c2e r) (em r) (col r) (clean r) (first r)) by (intros r L; specialize (Hf r L); unfold st, c2e, em, col, clean, first; destruct (f r) as [[[[[? ?] ?] ?] ?] ?]; exact Hf).
  exists st, c2e, em, col, clean, first. exact FL.
Qed.
Lemma joined_of tol n m st c2e em col clean first : SharedBorders n m -> (forall r, r < n -> Flagged tol (m r) (st r) (c2e r) (em r) (col r) (clean r) (first r)) -> Joined n (fun r => mypiece (m r) (st r) (em r)).
Proof.
  intros SB FL.
  set (P r := mypiece (m r) (st r) (em r)).
  assert (Lst : forall r s l, Shares P r s l <-> MeshShares m r s l) by (intros; reflexivity).
  assert (Bet : forall r l p q a b, r < n -> nth_error l p = Some a -> nth_error l q = Some b -> ((exists i, Between (pedges (P r)) l p q i) <-> exists f, segment (m r) f a b)).
  { intros r l p q a b L Ha Hb. destruct (sb_mesh _ _ SB r L) as (WF & PL & _). rewrite <- (joins_segment tol (m r) (st r) (c2e r) (em r) (col r) (clean r) (first r) WF PL (FL r L) a b). split.
    - intros (i & a' & b' & Ha' & Hb' & J). exists i. cbn [pedges P mypiece] in J. congruence.
    - intros (i & J). exists i, a, b. auto. }
  constructor.
    - intros r L. destruct (sb_mesh _ _ SB r L) as (WF & PL & _). split; [apply (Knd (m r) (st r) (fl_inv _ _ _ _ _ _ _ _ (FL r L)))|]. intros a b. eapply keys_in; eauto.
    - intros r L. cbn [pmask pedges P mypiece]. split; [apply (fl_len _ _ _ _ _ _ _ _ (FL r L))|]. intros v I. apply In_nth_error in I as [i Hi]. destruct (fl_em _ _ _ _ _ _ _ _ (FL r L) i v Hi) as [[-> _]|[-> _]]; auto.
    - intros r L. pose proof (sb_small _ _ SB r L) as Sm. assert (length (keys (st r)) <= length (faces (m r))) by (eapply keys_few; eauto). cbn [pnbrs pedges P mypiece]. nia.
    - apply (sb_nbrs _ _ SB).
    - apply (sb_range _ _ SB).
    - intros r s l L Sh. apply Lst in Sh. destruct (sb_lists _ _ SB r s l L Sh) as (ND & l' & Sh' & Ll & M). split; auto. destruct (sb_mesh _ _ SB r L) as (WF & PL & _). split.
      + intros x I. destruct Sh as (i & _ & Hi). eapply node_lt; eauto. exact (wf_shared_nodes _ _ WF _ _ _ Hi I).
      + exists l'. split; auto. split; auto. assert (Ls : s < n). { destruct Sh as (i & X & _). apply (sb_range _ _ SB r); auto. eapply nth_error_In; eauto. }
        assert (Pl : forall (x y : list nat) p, length x = length y -> forall a, nth_error x p = Some a -> exists b, nth_error y p = Some b) by (intros x y p Le a Ha; apply nth_error_ex; rewrite <- Le; eapply nth_error_lt; eauto).
        intros p q. split; intros (i & B); destruct B as (a & b & Ha & Hb & Jn).
        * destruct (Pl l l' p ltac:(auto) a Ha) as [a' Ha']. destruct (Pl l l' q ltac:(auto) b Hb) as [b' Hb']. apply (Bet s l' p q a' b'); auto. apply (M p q a b a' b'); auto. apply (Bet r l p q a b); auto. exists i, a, b. auto.
        * destruct (Pl l' l p ltac:(auto) a Ha) as [a' Ha']. destruct (Pl l' l q ltac:(auto) b Hb) as [b' Hb']. apply (Bet r l p q a' b'); auto. apply (M p q a' b' a b); auto. apply (Bet s l' p q a b); auto. exists i, a, b. auto.
Qed.
Lemma cleanRanks_ok tol n m : (0 < tol)%Q -> SharedBorders n m -> (forall r, r < n -> length (neighborDomains (m r)) <= 1) ->
  exists m' first pairs, Agreement tol n m first pairs /\
    (forall r, r < n -> (pairs r = [] /\ m' r = m r) \/ (pairs r <> [] /\ exists keepF keepN, Collapsed (m r) (m' r) (pairs r) keepF keepN)) /\
    forall ps, (forall r, r < n -> ps r = cleanEdgesRank 2 tol (m r)) -> (forall r, n <= r -> exists b, ps r = Ret b) -> Finishes n ps (fun r => Ok (m' r)).
Proof.
  intros T SB One. destruct (flagged_all tol n m T SB) as (st & c2e & em & col & clean & first & FL). pose proof (joined_of tol n m st c2e em col clean first SB FL) as J.
  set (P r := mypiece (m r) (st r) (em r)). change (Joined n P) in J.
  assert (Lst : forall r s l, Shares P r s l <-> MeshShares m r s l) by (intros; reflexivity).
  destruct (exchange_ok n P clean col J One) as (em' & nm' & col' & clean' & prs & A & B & C).
  { intros r L Cl I. apply (fl_clean _ _ _ _ _ _ _ _ (FL r L)) in Cl. apply In_nth_error in I as [i Hi]. destruct (fl_em _ _ _ _ _ _ _ _ (FL r L) i 0 Hi) as [[_ (k & d & I & _)]|[X _]]; [|discriminate]. rewrite Cl in I. destruct I. }
  assert (Nl : forall r, r < n -> NoDup (hd [] (plists (P r)))). { intros r L. destruct (plists (P r)) as [|l t] eqn:El; [constructor|]. apply (lists_ok n P J r 0 l L). rewrite El. auto. }
  assert (H : forall r, r < n -> (forall a b, collapses (prs r) a b <-> exists i, Joins (keys (st r)) a b i /\ nth_error (em' r) i = Some 0) /\ NoDup (ends (nodup pair_dec (prs r)))).
  { intros r L. destruct (A r L) as (S & Sub & _). destruct (sb_mesh _ _ SB r L) as (WF & PL & _). eapply some_edges; eauto. }
  assert (Hw : forall r a b, r < n -> (collapses (first r) a b <-> exists i, Joins (keys (st r)) a b i /\ nth_error (em r) i = Some 0)) by (intros r a b L; destruct (sb_mesh _ _ SB r L) as (WF & PL & _); eapply wants; eauto).
  set (pairs r := nodup pair_dec (prs r)).
  assert (Hc : forall r a b, collapses (pairs r) a b <-> collapses (prs r) a b) by (intros; unfold collapses, pairs; rewrite !nodup_In; tauto).
  assert (Hs : forall r, r < n -> Settled (P r) (hd [] (plists (P r))) (em' r) (nm' r) (col' r) (clean' r) (pairs r)) by (intros r L; apply settled_nodup, (A r L)).
  assert (HR : forall r, r < n -> exists m', (if clean' r : bool then Ok (m r) else collapse 2 (m r) (e2i (st r)) (em' r) (nm' r) (col' r)) = Ok m' /\ ((pairs r = [] /\ m' = m r) \/ (pairs r <> [] /\ exists keepF keepN, Collapsed (m r) m' (pairs r) keepF keepN))).
  { intros r L. pose proof (Hs r L) as S. destruct (sb_mesh _ _ SB r L) as (WF & PL & Si). destruct (clean' r) eqn:Cl.
    - exists (m r). split; auto. left. split; auto. apply (se_clean _ _ _ _ _ _ _ S). auto.
    - assert (Ne : pairs r <> []) by (intros X; apply (se_clean _ _ _ _ _ _ _ S) in X; congruence).
      destruct (se_em _ _ _ _ _ _ _ S) as [Le Be]. destruct (se_nm _ _ _ _ _ _ _ S) as [Ln Hn]. destruct (se_col _ _ _ _ _ _ _ S eq_refl) as [Lc Hcl]. destruct (H r L) as [Hp Hon].
      assert (Jk : forall a b i, Joins (keys (st r)) a b i <-> a <> b /\ nth_error (keys (st r)) i = Some (edge_key a b)) by (intros; eapply joins_key; eauto).
      assert (Kinj : forall i j k, nth_error (keys (st r)) i = Some k -> nth_error (keys (st r)) j = Some k -> i = j) by (apply Kinj with (m := m r); apply (FL r L)).
      destruct (collapse_ok (m r) WF PL (st r) (c2e r) (fl_inv _ _ _ _ _ _ _ _ (FL r L)) (fl_cells _ _ _ _ _ _ _ _ (FL r L)) (fl_keys _ _ _ _ _ _ _ _ (FL r L)) (pairs r) (em' r) (nm' r) (col' r)) as (m' & E & Co); auto.
      + intros k d I. destruct (proj1 (Hp k d)) as (i & Jn & _); [apply Hc; left; auto|]. apply Jk in Jn as [_ Jn]. eauto.
      + intros i v Hi. destruct (Be v (nth_error_In _ _ Hi)) as [-> | ->]; [left|right]; (split; [auto|]).
        * cbn [pedges P mypiece] in Le. destruct (nth_error_ex (keys (st r)) i) as [[a b] Hk]; [rewrite <- Le; eapply nth_error_lt; eauto|]. assert (Cab : collapses (prs r) a b) by (apply Hp; exists i; split; auto; left; auto). assert (Lab : a < b) by (eapply keys_in; eauto; eapply nth_error_In; eauto). rewrite Hk. destruct Cab as [I|I]; [exists a, b|exists b, a]; (split; [apply nodup_In; auto|]); f_equal; [|rewrite edge_key_sym]; rewrite edge_key_self; auto.
        * intros (k & d & I & Hk). destruct (proj1 (Hp k d)) as (j & Jn & Z); [apply Hc; left; auto|]. apply Jk in Jn as [_ Jn]. rewrite (Kinj j i _ Jn Hk) in Z. congruence.
      + intros x Lx. destruct (nth_error_ex (nm' r) x) as [v Hv]; [rewrite Ln; auto|]. exists v. auto.
      + exists m'. auto. }
  destruct (choose (m 0) (fun r m' => (if clean' r : bool then Ok (m r) else collapse 2 (m r) (e2i (st r)) (em' r) (nm' r) (col' r)) = Ok m' /\ ((pairs r = [] /\ m' = m r) \/ (pairs r <> [] /\ exists keepF keepN, Collapsed (m r) m' (pairs r) keepF keepN))) n HR) as [m' Hm'].
  assert (Hd : forall r s l, r < n -> Shares P r s l -> hd [] (plists (P r)) = l). { intros r s l L Sh. destruct Sh as (i & X & Y). pose proof (only n P One r s L (nth_error_In _ _ X)) as Es. destruct (only_list n P J r s L Es) as (l0 & El & _). rewrite El in *. destruct i as [|[|]]; cbn in *; congruence. }
  exists m', first, pairs. split; [|split].
  - constructor.
    + intros r L. apply (FL r L).
    + intros r L. apply (H r L).
    + intros r a b L N. rewrite Hc, (proj1 (H r L)), Hw by auto. destruct (A r L) as (_ & _ & Same). split; intros (i & Jn & Z); exists i; (split; [auto|]); [rewrite <- Same|rewrite Same]; auto; intros s l p q Sh (x & y & Hx & Hy & Jn'); apply (N s l Sh); cbn [pedges P mypiece] in Jn'; destruct Jn as [Q1|Q1], Jn' as [Q2|Q2]; rewrite Q1 in Q2; injection Q2 as -> ->; eapply nth_error_In; eauto.
    + intros r s l l' p q a b a' b' L Sh Sh' Ha Hb Ha' Hb'. assert (Ls : s < n) by (apply (shares_range n P J r s l L Sh)). destruct (B r s l l' L Sh Sh') as [SM _]. rewrite Hc, (proj1 (H r L)), !Hw by auto. destruct (mutual n P J r s l l' L Sh Sh') as [_ Mu]. split.
      * intros (i & Jn & Z). assert (Bi : Between (pedges (P r)) l p q i) by (exists a, b; auto). destruct (proj1 (Mu p q) (ex_intro _ i Bi)) as [i' Bi']. destruct (SM p q i i' Bi Bi') as (x & y & X1 & X2 & X3 & _). rewrite Z in X3. injection X3 as X3. assert (x = 0 /\ y = 0) as [-> ->] by lia. split; [exists i; auto|exists i'; split; auto]. destruct Bi' as (a2 & b2 & Y1 & Y2 & Y3). cbn [pedges P mypiece] in Y3. congruence.
      * intros [(i & Jn & Z) (i' & Jn' & Z')]. exists i. split; auto. destruct (SM p q i i') as (x & y & X1 & X2 & X3 & _); [exists a, b; auto|exists a', b'; auto|]. cbn [pmask P mypiece] in X1, X2. rewrite Z in X1. rewrite Z' in X2. injection X1 as <-. injection X2 as <-. auto.
    + intros r s l k d L Sh I Id. pose proof (Hs r L) as S. rewrite (Hd r s l L Sh) in S. eapply shared_to_shared; eauto.
    + intros r s l l' L Sh Sh'. apply fate_nodup. apply (B r s l l' L Sh Sh').
  - intros r L. apply (Hm' r L).
  - intros ps Hp Ho. destruct (C (mesh Q) (fun r '(em, nm, col, clean) => if clean : bool then Ok (m r) else collapse 2 (m r) (e2i (st r)) em nm col) ps) as (a & Fin & Ha); auto.
    + intros r L. rewrite Hp by auto. unfold cleanEdgesRank. destruct (fl_run _ _ _ _ _ _ _ _ (FL r L)) as [nm ->]. cbn [lift P mypiece pnodes pedges pnbrs plists pmask]. unfold keys. rewrite <- pos_table by apply (fl_inv _ _ _ _ _ _ _ _ (FL r L)). reflexivity.
    + destruct Fin as (tot & Fin). exists tot. intros k e St. destruct (Fin k e St) as (F1 & F2 & F3). split; auto. split; auto. intros Ek r L. rewrite (F3 Ek r L), (Ha r L). destruct (Hm' r L) as [-> _]. auto.
Qed.

Lemma cleanRanks_abort tol n m ps : (0 < tol)%Q -> SharedBorders n m -> (forall r, r < n -> ps r = cleanEdgesRank 2 tol (m r)) -> (forall r, n <= r -> exists b, ps r = Ret b) ->
  exists a, Finishes n ps a /\ forall r s, r < n -> In s (neighborDomains (m r)) -> nth_error (neighborDomains (m s)) 0 <> Some r -> a r = Abort.
Proof.
  intros T SB Hp Ho. destruct (flagged_all tol n m T SB) as (st & c2e & em & col & clean & first & FL). pose proof (joined_of tol n m st c2e em col clean first SB FL) as J.
  destruct (exchange_abort n _ (mesh Q) clean col (fun r '(em, nm, col, clean) => if clean : bool then Ok (m r) else collapse 2 (m r) (e2i (st r)) em nm col) ps J) as (a & Fin & Ha); auto; [|exists a; auto].
  intros r L. rewrite Hp by auto. unfold cleanEdgesRank. destruct (fl_run _ _ _ _ _ _ _ _ (FL r L)) as [nm ->]. cbn [lift mypiece pnodes pedges pnbrs plists pmask]. unfold keys. rewrite <- pos_table by apply (fl_inv _ _ _ _ _ _ _ _ (FL r L)). reflexivity.
Qed.

(* the shared nodes afterwards *)
Lemma selected_same {X Y} (P P' : X -> Prop) (R R' : X -> Y -> Prop) (Q : X -> X -> Prop) (Z : Y -> Y -> Prop) l : (forall x x' y y', Q x x' -> R x y -> R' x' y' -> Z y y') ->
  forall l' k k', Forall2 (fun x x' => Q x x' /\ (P x <-> P' x')) l l' -> selected P R l k -> selected P' R' l' k' -> Forall2 Z k k'.
Proof.
  intros H. induction l as [|x l IH]; intros l' k k' F S S'; inversion F; subst; inversion S; subst; inversion S'; subst; try tauto; try (constructor; fail); try (eapply IH; eauto; fail).
  constructor; [eapply H; [apply H2|eauto|eauto]|eauto].
Qed.
Lemma kept_shared m m' pairs : WellFormed 2 m -> (pairs = [] /\ m' = m) \/ (pairs <> [] /\ exists keepF keepN, Collapsed m m' pairs keepF keepN) ->
  neighborDomains m' = neighborDomains m /\ forall i l, nth_error (sharedNodes m) i = Some l -> exists k, nth_error (sharedNodes m') i = Some k /\ selected (fun x => ~ removed pairs x) (fun x y => pos m' y = pos m x) l k.
Proof.
  intros WF [[-> ->]|(_ & keepF & keepN & C)].
  - split; auto. intros i l H. exists l. split; auto. clear. induction l; constructor; auto. intros [k []].
  - split; [apply (co_nd _ _ _ _ _ C)|]. intros i l H. destruct (co_sn _ _ _ _ _ C i l H) as (k & Hk & S). exists k. split; auto. assert (In_ : forall x, In x l -> 2 * x + 2 <= length (nodes m)) by (intros x I; apply (wf_shared_nodes _ _ WF i l x H I)).
    clear H Hk. induction S; constructor; auto.
    + apply (co_N _ _ _ _ _ C) in H. tauto.
    + apply (co_nodes _ _ _ _ _ C). auto.
    + apply IHS. intros; apply In_; right; auto.
    + intros N. apply H. apply (co_N _ _ _ _ _ C). split; auto. apply In_. left; auto.
    + apply IHS. intros; apply In_; right; auto.
Qed.
Lemma agree_after tol n m m' first pairs : SharedBorders n m -> Agreement tol n m first pairs ->
  (forall r, r < n -> (pairs r = [] /\ m' r = m r) \/ (pairs r <> [] /\ exists keepF keepN, Collapsed (m r) (m' r) (pairs r) keepF keepN)) ->
  forall r s l l', r < n -> MeshShares m r s l -> MeshShares m s r l' -> SamePoints (m r) (m s) l l' ->
    exists k k', MeshShares m' r s k /\ MeshShares m' s r k' /\ SamePoints (m' r) (m' s) k k'.
Proof.
  intros SB AG Co r s l l' L Sh Sh' SP. assert (Ls : s < n) by (destruct Sh as (i & X & _); apply (sb_range _ _ SB r); auto; eapply nth_error_In; eauto).
  destruct (kept_shared (m r) (m' r) (pairs r) (proj1 (sb_mesh _ _ SB r L)) (Co r L)) as [N1 K1]. destruct (kept_shared (m s) (m' s) (pairs s) (proj1 (sb_mesh _ _ SB s Ls)) (Co s Ls)) as [N2 K2].
  pose proof (ag_fate _ _ _ _ _ AG r s l l' L Sh Sh') as (_ & Fate & _). destruct Sh as (i & A & B), Sh' as (j & A' & B'). destruct (K1 i l B) as (k & Hk & S1). destruct (K2 j l' B') as (k' & Hk' & S2). exists k, k'.
  split; [exists i; rewrite N1; auto|]. split; [exists j; rewrite N2; auto|].
  refine (selected_same _ _ _ _ (fun x x' => pos (m r) x = pos (m s) x') _ l _ l' k k' _ S1 S2); [congruence|].
  clear - SP Fate. induction SP as [|x x' l l' Hx F IH]; constructor.
  - split; auto. rewrite (Fate 0 x x'); auto. tauto.
  - apply IH. intros p. apply (Fate (S p)).
Qed.

Lemma finishes_unique {M A} n (ps : nat -> prog M A) a b : Finishes n ps a -> Finishes n ps b -> forall r, r < n -> a r = b r.
Proof.
  intros (t & F) (u & G). assert (Ex : forall k, k <= t -> exists e, steps k (start ps) e).
  { induction k as [|k IH]; intros L; [exists (start ps); constructor; auto|]. destruct (IH ltac:(lia)) as [e St]. destruct (F k e St) as (_ & F2 & _). destruct (F2 ltac:(lia)) as [e' Se]. exists e'. replace (S k) with (k + 1) by lia. apply (steps_trans k 1 _ e); auto. apply (steps_S 0 e e' e'); auto. constructor; auto. }
  destruct (Ex t ltac:(lia)) as [e St]. destruct (G t e St) as (G1 & G2 & G3). destruct (Nat.eq_dec t u) as [->|N].
  - intros r L. destruct (F u e St) as (_ & _ & F3). pose proof (F3 eq_refl r L). pose proof (G3 eq_refl r L). congruence.
  - exfalso. destruct (G2 ltac:(lia)) as [e' Se]. destruct (F (t + 1) e') as (F1 & _); [|lia]. apply (steps_trans t 1 _ e); auto. apply (steps_S 0 e e' e'); auto. constructor; auto.
Qed.
