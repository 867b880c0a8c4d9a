(* The cells that are read are the Voronoi cells. *)
From Coq Require Import QArith Lqa Sorted Permutation.
From Verif Require Import Base BaseFacts StdAlg KeyMapModel FaceSortModel SerializeModel MeshEditorModel MeshEditorProofs2 QuantMeshModel BoxModel BoxProofs BoxProps PLCSpec Plane PlaneFacts AreaModel AreaSpec AreaProofs AreaProofs2 AreaProps WithinSpec HullProofs5 PolygonProofs2 TriModel TriSpec TriProofs TriProofs2 TriProofs3 TriProofs4 TriProofs5 TriProofs6 TriProofs7 TriProofs8.
Local Open Scope nat_scope.

Lemma orient_turn a b c : (orient b c a == orient a b c)%Q.
Proof. unfold orient. ring. Qed.
Lemma ring_map {A B} (g : A -> B) r x y : In (x, y) (ring (map g r)) <-> exists a b, In (a, b) (ring r) /\ x = g a /\ y = g b.
Proof.
  split.
  - intros I. apply In_nth_error in I as [i I]. apply ring_nth in I as (L & X & Y). rewrite map_length in *. rewrite nth_error_map in X, Y.
    destruct (nth_error r i) as [a|] eqn:Ea; [|discriminate]. destruct (nth_error r ((i + 1) mod length r)) as [b|] eqn:Eb; [|discriminate].
    injection X as <-. injection Y as <-. exists a, b. split; auto. apply (nth_error_In _ i). apply ring_nth. auto.
  - intros (a & b & I & -> & ->). apply In_nth_error in I as [i I]. apply ring_nth in I as (L & X & Y).
    apply (nth_error_In _ i). apply ring_nth. rewrite map_length, !nth_error_map, X, Y. auto.
Qed.

(* a walk along the cycle that starts forward stays forward *)
Section OneWay.
  Context (n : nat) (ids : nat -> nat) (n3 : 3 <= n) (Hid : forall i j, ids i = ids j <-> i mod n = j mod n)
    (r : list nat) (Lr : length r = n) (Nr : NoDup r)
    (Adj : forall i x y, nth_error r i = Some x -> nth_error r ((i + 1) mod n) = Some y ->
       exists m, (x = ids m /\ y = ids (m + 1)) \/ (x = ids (m + 1) /\ y = ids m)).
  Lemma one_way : (forall a b, In (a, b) (ring r) -> exists m, a = ids m /\ b = ids (m + 1)) \/
                  (forall a b, In (a, b) (ring r) -> exists m, a = ids (m + 1) /\ b = ids m).
  Proof.
    destruct (nth_error_ex r (n - 1)) as [x Hx]; [lia|]. destruct (nth_error_ex r 0) as [y Hy]; [lia|].
    assert (W : (n - 1 + 1) mod n = 0) by (replace (n - 1 + 1) with n by lia; apply Nat.mod_same; lia).
    destruct (Adj (n - 1) x y Hx) as (j & [[-> ->]|[-> ->]]); [rewrite W; auto| |].
    - left. pose proof (cyc_fwd n ids n3 Hid r Lr Nr Adj j Hx Hy) as G. intros a b I. apply In_nth_error in I as [i I].
      apply ring_nth in I as (Li & A & B). rewrite Lr in *. rewrite (G i Li) in A. injection A as <-. exists (j + 1 + i). split; auto.
      destruct (Nat.eq_dec (i + 1) n) as [Q|Q].
      + rewrite Q, Nat.mod_same in B by lia. rewrite Hy in B. injection B as <-. apply Hid. replace (j + 1 + i + 1) with (j + 1 + 1 * n) by lia. rewrite Nat.mod_add; auto. lia.
      + rewrite Nat.mod_small in B by lia. rewrite (G (i + 1)) in B by lia. injection B as <-. f_equal. lia.
    - right. pose proof (cyc_bwd n ids n3 Hid r Lr Nr Adj j Hx Hy) as G. intros a b I. apply In_nth_error in I as [i I].
      apply ring_nth in I as (Li & A & B). rewrite Lr in *. rewrite (G i Li) in A. injection A as <-. exists (j + n - i - 1). split; [f_equal; lia|].
      destruct (Nat.eq_dec (i + 1) n) as [Q|Q].
      + rewrite Q, Nat.mod_same in B by lia. rewrite Hy in B. injection B as <-. apply Hid. f_equal. lia.
      + rewrite Nat.mod_small in B by lia. rewrite (G (i + 1)) in B by lia. injection B as <-. f_equal. lia.
  Qed.
End OneWay.

Definition cen (pts : list p2) (tris : list tri) (i : nat) : p2 :=
  let '(a, b, c) := nth i tris (0, 0, 0) in circumcenter (nth a pts (0, 0)%Q) (nth b pts (0, 0)%Q) (nth c pts (0, 0)%Q).
Lemma nth_some {A} (l : list A) i a d : nth_error l i = Some a -> nth i l d = a.
Proof. intros H. rewrite (nth_error_nth _ _ d H). auto. Qed.

Section CellOf.
  Context (f : frame) (gens guards : list pt) (tris : list tri).
  Let pts := map (deq f) (gens ++ guards).
  Let ngen := length gens.
  Context (F : full f) (G : forall p, In p (gens ++ guards) -> on_grid p) (D : Delaunay pts ngen tris)
    (In_range : forall a b c x, In (a, b, c) tris -> a < ngen \/ b < ngen \/ c < ngen -> Center pts (a, b, c) x -> in_frame f x).

  Lemma cen_center i t : nth_error tris i = Some t -> Center pts t (cen pts tris i).
  Proof.
    destruct t as [[a b] c]. intros H. destruct (dl_ccw _ _ _ D a b c (nth_error_In _ _ H)) as (A & B & C & Ha & Hb & Hc & O).
    unfold cen. rewrite (nth_some _ _ _ (0, 0, 0) H), (nth_some _ _ _ (0, 0)%Q Ha), (nth_some _ _ _ (0, 0)%Q Hb), (nth_some _ _ _ (0, 0)%Q Hc).
    apply center_ok; auto.
  Qed.

  Lemma vertex_ok st k i : RI f pts ngen tris (length tris) st -> owner ngen tris k i -> VertexAt f pts ngen tris (s_nodes st) k (cen pts tris i).
  Proof.
    intros R O. pose proof O as O'. apply owner_nid in O' as (Li & Ri & _). destruct (nth_error_ex tris i Li) as [t Ht].
    pose proof (cen_center i t Ht) as C.
    destruct (Forall2_nth_r _ _ _ k i (ri_nodes _ _ _ _ _ _ R) O) as (v & Hv & Nv).
    destruct Nv as (a & b & c & A & B & C' & Et & Ha & Hb & Hc & Q). rewrite Ht in Et. injection Et as ->.
    assert (Ec : cen pts tris i = circumcenter A B C').
    { unfold cen. rewrite (nth_some _ _ _ (0, 0, 0) Ht), (nth_some _ _ _ (0, 0)%Q Ha), (nth_some _ _ _ (0, 0)%Q Hb), (nth_some _ _ _ (0, 0)%Q Hc). auto. }
    assert (Ir : in_frame f (cen pts tris i)).
    { apply (In_range a b c); auto; [eapply nth_error_In; eauto|]. unfold realb in Ri. rewrite Ht in Ri. unfold real in Ri. rewrite !orb_true_iff, !Nat.ltb_lt in Ri. tauto. }
    rewrite <- Ec, (to_grid_ok f _ F Ir) in Q. injection Q as Q.
    exists v, i, (a, b, c). split; auto. split; auto. split; auto. split; auto.
    destruct (dequantize_error f _ (full_proper f F) Ir) as (x & y & E & X & Y). exists x, y. rewrite <- Q. auto.
  Qed.

  Section Around.
    Context (p : nat) (link ts : list nat) (Lp : p < ngen) (S : Star tris p link ts) (P : p2) (HP : nth_error pts p = Some P).
    Let n := length link.
    Let a (i : nat) : p2 := nth (LK link i) pts (0, 0)%Q.
    Let c (i : nat) : p2 := cen pts tris (TR link ts i).

    Lemma around_facts j : exists A B, nth_error pts (LK link j) = Some A /\ nth_error pts (LK link (j + 1)) = Some B /\ (0 < orient P A B)%Q /\
      (sqd (c j) P == sqd (c j) A)%Q /\ (sqd (c j) P == sqd (c j) B)%Q /\ forall q, In q pts -> (sqd (c j) P <= sqd (c j) q)%Q.
    Proof.
      destruct (TR_tri _ _ _ _ S j) as (u & Hu & T). pose proof (cen_center _ _ Hu) as C. fold (c j) in C.
      assert (Nr : Nearest pts p (c j)).
      { apply (dl_empty _ _ _ D u p (c j) (nth_error_In _ _ Hu) C). destruct T as [-> | [-> | ->]]; cbn; auto. }
      destruct Nr as (P' & HP' & Nr). rewrite HP in HP'. injection HP' as <-.
      destruct T as [-> | [-> | ->]]; destruct (dl_ccw _ _ _ D _ _ _ (nth_error_In _ _ Hu)) as (X & Y & Z & HX & HY & HZ & O);
        destruct C as (X' & Y' & Z' & HX' & HY' & HZ' & E1 & E2);
        rewrite HX in HX'; rewrite HY in HY'; rewrite HZ in HZ'; injection HX' as <-; injection HY' as <-; injection HZ' as <-.
      - rewrite HP in HX. injection HX as <-. exists Y, Z. auto 10.
      - rewrite HP in HZ. injection HZ as <-. exists X, Y. split; auto. split; auto. split; [rewrite <- orient_turn; auto|]. split; [|split; auto]; lra.
      - rewrite HP in HY. injection HY as <-. exists Z, X. split; auto. split; auto. split; [rewrite orient_turn; auto|]. split; [|split; auto]; lra.
    Qed.
    Lemma a_at j : nth_error pts (LK link j) = Some (a j).
    Proof. destruct (around_facts j) as (A & B & HA & _). unfold a. rewrite (nth_some _ _ _ (0, 0)%Q HA). auto. Qed.
    Lemma fact_or j : (0 < orient P (a j) (a (j + 1)))%Q.
    Proof. destruct (around_facts j) as (A & B & HA & HB & O & _). rewrite a_at in HA, HB. injection HA as <-. injection HB as <-. auto. Qed.
    Lemma fact_1 j : (sqd (c j) P == sqd (c j) (a j))%Q.
    Proof. destruct (around_facts j) as (A & B & HA & HB & O & X & _). rewrite a_at in HA, HB. injection HA as <-. injection HB as <-. auto. Qed.
    Lemma fact_2 j : (sqd (c j) P == sqd (c j) (a (j + 1)))%Q.
    Proof. destruct (around_facts j) as (A & B & HA & HB & O & X & Y & _). rewrite a_at in HA, HB. injection HA as <-. injection HB as <-. auto. Qed.
    Lemma fact_3 j q : In q pts -> (sqd (c j) P <= sqd (c j) q)%Q.
    Proof. destruct (around_facts j) as (A & B & HA & HB & O & X & Y & Z). auto. Qed.
    Lemma per_a i : a (i + n) = a i.
    Proof. unfold a. f_equal. apply LK_eq. fold n. replace (i + n) with (i + 1 * n) by lia. apply Nat.mod_add. pose proof (st_size _ _ _ _ S). unfold n. lia. Qed.
    Lemma per_c i : c (i + n) = c i.
    Proof. unfold c. f_equal. apply TR_eq. fold n. replace (i + n) with (i + 1 * n) by lia. apply Nat.mod_add. pose proof (st_size _ _ _ _ S). unfold n. lia. Qed.
    Lemma n_1 : 1 <= n. Proof. pose proof (st_size _ _ _ _ S). unfold n. lia. Qed.

    Lemma hull_eq x : Nearest pts p x <-> Combination (map c (seq 0 n)) x.
    Proof.
      split.
      - intros (P' & HP' & H). rewrite HP in HP'. injection HP' as <-.
        apply (vor_hull n n_1 P a c per_a per_c fact_or fact_1 fact_2).
        + intros i j. apply fact_3. eapply nth_error_In. apply a_at.
        + intros j. apply H. eapply nth_error_In. apply a_at.
      - intros C. exists P. split; auto. intros q Iq. apply (hull_near P q (map c (seq 0 n))); auto.
        intros y Iy. apply in_map_iff in Iy as (j & <- & _). apply fact_3. auto.
    Qed.
    Lemma side_left i j : (0 <= orient (c i) (c (i + 1)) (c j))%Q.
    Proof.
      rewrite orient_cr. set (u := vsub (a (i + 1)) P).
      assert (U : (0 < dt u u)%Q) by (apply (w_pos P a fact_or)).
      apply (pos_mult _ _ U). rewrite cr_dt.
      pose proof (v_along P a c fact_or fact_1 fact_2 (fun i j => fact_3 i _ (nth_error_In _ _ (a_at j))) i) as V. cbv beta in V. fold u in V.
      pose proof (sqd_diff (c i) P (a (i + 1))) as S1. pose proof (sqd_diff (c (i + 1)) P (a (i + 1))) as S2. pose proof (sqd_diff (c j) P (a (i + 1))) as S3.
      fold u in S1, S2, S3. pose proof (fact_2 i) as F1. pose proof (fact_1 (i + 1)) as F2. pose proof (fact_3 j _ (nth_error_In _ _ (a_at (i + 1)))) as F3.
      assert (A : (dt u (vsub (c (i + 1)) (c i)) == 0)%Q).
      { transitivity (dt (vsub (c (i + 1)) P) u - dt (vsub (c i) P) u)%Q; [unfold dt, vsub; cbn [fst snd]; ring|lra]. }
      assert (B : (cr u (vsub (c (i + 1)) (c i)) == cr u (vsub (c (i + 1)) P) - cr u (vsub (c i) P))%Q) by (unfold cr, vsub; cbn [fst snd]; ring).
      assert (C : (dt u (vsub (c j) (c i)) == dt (vsub (c j) P) u - dt (vsub (c i) P) u)%Q) by (unfold dt, vsub; cbn [fst snd]; ring).
      rewrite A, B, C. setoid_replace (0 * cr u (vsub (c j) (c i)) - (cr u (vsub (c (i + 1)) P) - cr u (vsub (c i) P)) * (dt (vsub (c j) P) u - dt (vsub (c i) P) u))%Q
        with ((cr u (vsub (c (i + 1)) P) - cr u (vsub (c i) P)) * (dt (vsub (c i) P) u - dt (vsub (c j) P) u))%Q by ring.
      apply Qmult_le_0_compat; lra.
    Qed.
  End Around.

  Lemma cell_ok st p link ts r edges c : p < ngen -> Star tris p link ts -> RingOf ngen tris link ts r -> RI f pts ngen tris (length tris) st ->
    map (way edges) c = map Some (ring r) -> VoronoiCell f pts ngen tris (s_nodes st) edges p c.
  Proof.
    intros Lp S Ro R W. assert (HP : exists P, nth_error pts p = Some P) by (apply nth_error_ex; unfold pts; rewrite map_length, app_length; fold ngen; lia).
    destruct HP as [P HP]. pose (tr := fun k => nth k (owners ngen tris) 0). pose (xs := map (fun k => cen pts tris (tr k)) r).
    assert (Tr : forall j, tr (nid ngen tris (TR link ts j)) = TR link ts j).
    { intros j. unfold tr. apply nth_some. apply (pair_owner ngen tris (distinct f gens guards tris F G D In_range) p link ts Lp S). }
    exists r, xs. split; auto. split; [|split].
    - assert (All : forall l, (forall k, In k l -> VertexAt f pts ngen tris (s_nodes st) k (cen pts tris (tr k))) -> Forall2 (VertexAt f pts ngen tris (s_nodes st)) l (map (fun k => cen pts tris (tr k)) l)).
      { induction l as [|k l IH]; intros H; [apply Forall2_nil|]. apply Forall2_cons; [apply H; left; auto|]. apply IH. intros k' I. apply H. right. auto. }
      apply All. intros k Ik. apply (ro_in _ _ _ _ _ Ro) in Ik as [j ->]. rewrite Tr. apply vertex_ok; auto.
      apply (pair_owner ngen tris (distinct f gens guards tris F G D In_range) p link ts Lp S).
    - assert (Zin : forall z, In z xs -> exists j, z = cen pts tris (TR link ts j)).
      { intros z Iz. apply in_map_iff in Iz as (k & <- & Ik). apply (ro_in _ _ _ _ _ Ro) in Ik as [j ->]. rewrite Tr. eauto. }
      destruct (one_way (length link) (fun j => nid ngen tris (TR link ts j)) (st_size _ _ _ _ S)
         (nid_TR ngen tris (distinct f gens guards tris F G D In_range) p link ts Lp S) r (ro_len _ _ _ _ _ Ro) (ro_nodup _ _ _ _ _ Ro) (ro_adj _ _ _ _ _ Ro)) as [H|H]; [left|right];
        intros x y z Ixy Iz; apply ring_map in Ixy as (k & k' & I & -> & ->); destruct (H k k' I) as (m & -> & ->); rewrite !Tr;
        destruct (Zin z Iz) as [j ->]; pose proof (side_left p link ts S P HP m j) as Q; cbv beta in Q; auto.
      assert (X : forall a b c, (orient b a c == - orient a b c)%Q) by (intros; unfold orient; ring). rewrite X. lra.
    - intros x. rewrite (hull_eq p link ts Lp S P HP x). split; intros C; apply (comb_incl x _ C); intros z Iz.
      + apply in_map_iff in Iz as (j & <- & _). unfold xs. apply in_map_iff. exists (nid ngen tris (TR link ts j)). rewrite Tr. split; auto. apply (ro_in _ _ _ _ _ Ro). eauto.
      + apply in_map_iff in Iz as (k & <- & Ik). apply (ro_in _ _ _ _ _ Ro) in Ik as [j ->]. rewrite Tr.
        pose proof (st_size _ _ _ _ S). rewrite (per_mod (length link) ltac:(lia) (fun j => cen pts tris (TR link ts j)) (per_c p link ts Lp S) j).
        apply (in_map (fun j => cen pts tris (TR link ts j))). apply in_seq. pose proof (Nat.mod_upper_bound j (length link) ltac:(lia)). lia.
  Qed.
End CellOf.
