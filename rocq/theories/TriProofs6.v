(* Reading a Delaunay triangulation succeeds. *)
From Coq Require Import QArith Lqa Sorted Permutation.
From Verif Require Import Base BaseFacts StdAlg KeyMapModel KeyMapProofs FaceSortModel SerializeModel MeshEditorModel MeshEditorProofs2 QuantMeshModel BoxModel BoxProofs BoxProps PLCSpec Plane AreaModel AreaSpec AreaProofs AreaProofs2 AreaProps TriModel TriSpec TriProofs TriProofs2 TriProofs3 TriProofs4 TriProofs5.
Local Open Scope nat_scope.

(* a frame over the full range of quantized coordinates *)
Definition full (f : frame) : Prop := cmin f = coordMin /\ cmax f = coordMax /\ (0 < flen f)%Q.
Lemma full_proper f : full f -> proper f.
Proof. intros (A & B & C). split; auto. rewrite A, B. vm_compute. auto. Qed.
Definition on_grid (p : pt) : Prop := (coordMin <= fst p <= coordMax)%Z /\ (coordMin <= snd p <= coordMax)%Z.

Lemma as_int_ok z : (- 2 ^ 31 <= z <= 2 ^ 31 - 1)%Z -> as_int z = true.
Proof. intros H. unfold as_int. apply andb_true_iff. split; apply Z.leb_le; lia. Qed.
Lemma coord_vals : coordMin = (- 2 ^ 30)%Z /\ coordMax = (2 ^ 30 - 1)%Z.
Proof. split; reflexivity. Qed.

Lemma to_grid1_ok f x0 x : full f -> (x0 <= x <= x0 + flen f)%Q ->
  to_grid1 (cmin f) (cmax f) x0 (flen f) x = Ok (quantize1 (cmin f) (cmax f) x0 (flen f) x).
Proof.
  intros F [L U]. pose proof (full_proper f F) as P. destruct (quantize1_spec f x0 x P L) as (A & _ & B). specialize (B U).
  unfold to_grid1. cbv zeta. unfold quantize1 in *. set (t := trunc _) in *. destruct F as (F1 & F2 & _). destruct coord_vals as [V1 V2].
  assert (A' : (0 <= t <= coordMax - coordMin)%Z) by (rewrite F1, F2 in *; lia).
  rewrite !as_int_ok; auto; rewrite ?F1, ?V1, ?V2 in *; lia.
Qed.
Lemma to_grid_ok f p : full f -> in_frame f p -> to_grid f p = Ok (quantize f p).
Proof. intros F [H1 H2]. unfold to_grid. rewrite !to_grid1_ok by auto. auto. Qed.
Lemma deq_ok f p : full f -> on_grid p -> to_grid f (deq f p) = Ok p /\ in_frame f (deq f p).
Proof.
  intros F [G1 G2]. pose proof (full_proper f F) as P. pose proof F as (F1 & F2 & _). rewrite <- F1, <- F2 in G1, G2. destruct p as [i j].
  destruct (quantize_dequantize f i j P G1 G2) as (x & y & E & Q & I). unfold dequantize in E. injection E as E1 E2.
  unfold deq. cbn [fst snd] in *. rewrite E1, E2. split; auto. rewrite to_grid_ok by auto. congruence.
Qed.

Lemma sqd_d2 x p : (sqd x p == d2 x p)%Q.
Proof. unfold sqd, d2. ring. Qed.
Lemma center_ok pts a b c A B C : nth_error pts a = Some A -> nth_error pts b = Some B -> nth_error pts c = Some C ->
  (0 < orient A B C)%Q -> Center pts (a, b, c) (circumcenter A B C).
Proof.
  intros Ha Hb Hc O. destruct (circumcenter_equidistant A B C (circumcenter A B C)) as [E1 E2]; [lra|auto|].
  exists A, B, C. rewrite !sqd_d2. auto.
Qed.
Lemma orient_nonzero A B C : (0 < orient A B C)%Q -> A <> B /\ A <> C /\ B <> C.
Proof.
  intros H. unfold orient in H. destruct A as [a1 a2], B as [b1 b2], C as [c1 c2]. cbn [fst snd] in H.
  repeat split; intros E; injection E as -> ->; ring_simplify in H; lra.
Qed.

Section Main.
  Context (f : frame) (gens guards : list pt) (tris : list tri).
  Let pts := map (deq f) (gens ++ guards).
  Let ngen := length gens.
  Context (F : full f) (G : forall p, In p (gens ++ guards) -> on_grid p) (D : Delaunay pts ngen tris)
    (In_range : forall a b c x, In (a, b, c) tris -> a < ngen \/ b < ngen \/ c < ngen -> Center pts (a, b, c) x -> in_frame f x).

  Lemma pts_at a A : nth_error pts a = Some A -> exists p, nth_error (gens ++ guards) a = Some p /\ A = deq f p /\ on_grid p /\ to_grid f A = Ok p.
  Proof.
    clear D In_range.
    intros H. unfold pts in H. rewrite nth_error_map in H. destruct (nth_error (gens ++ guards) a) as [p|] eqn:E; [|discriminate].
    injection H as <-. exists p. pose proof (G p (nth_error_In _ _ E)) as O. repeat split; auto; try apply O. apply deq_ok; auto.
  Qed.
  Lemma readable t : In t tris -> Readable f pts ngen t.
  Proof.
    destruct t as [[a b] c]. intros I. destruct (dl_ccw _ _ _ D a b c I) as (A & B & C & Ha & Hb & Hc & O).
    destruct (orient_nonzero A B C O) as (N1 & N2 & N3).
    destruct (pts_at _ _ Ha) as (x & Ex & EA & Gx & Tx). destruct (pts_at _ _ Hb) as (y & Ey & EB & Gy & Ty). destruct (pts_at _ _ Hc) as (z & Ez & EC & Gz & Tz).
    unfold Readable. repeat split; try (intros ->; congruence).
    exists A, B, C, x, y, z. repeat split; auto; try (intros ->; congruence).
    - apply qlt_bool_iff. auto.
    - intros Rl. exists (quantize f (circumcenter A B C)). apply to_grid_ok; auto. apply (In_range a b c); auto.
      + unfold real in Rl. rewrite !orb_true_iff, !Nat.ltb_lt in Rl. tauto.
      + apply center_ok; auto.
  Qed.
  Lemma distinct i a b c : nth_error tris i = Some (a, b, c) -> a <> b /\ a <> c /\ b <> c.
  Proof. intros H. destruct (readable (a, b, c) (nth_error_In _ _ H)) as (A & B & C & _). auto. Qed.

  Lemma check_ok st : RI f pts ngen tris (length tris) st -> check_stars ngen st = Ok tt.
  Proof.
    intros R. unfold check_stars.
    assert (A : forall m, (forall kv, In kv m -> In kv (s_dedge st)) ->
      mfold (fun (_ : unit) (kv : (Z * Z) * list nat) => assert ((length (snd kv) =? 1) || (length (snd kv) =? 2))) m tt = Ok tt).
    { induction m as [|[k l] m IH]; intros H; auto. cbn [mfold snd].
      assert (El : around (s_dedge st) k = l) by (apply around_entry; [apply (ri_keys _ _ _ _ _ _ R)|apply H; left; auto]).
      assert (Ne : l <> []) by (apply (ri_full _ _ _ _ _ _ R (k, l)); apply H; left; auto).
      assert (L : length l <= 2).
      { assert (Nd : NoDup l) by (rewrite <- El; eapply around_nodup; eauto).
        destruct l as [|i [|j [|m' l]]]; cbn; try lia. exfalso.
        assert (T : forall x, In x (i :: j :: m' :: l) -> edgb tris k x = true).
        { intros x Ix. rewrite <- El, (ri_edge _ _ _ _ _ _ R) in Ix. apply filter_In in Ix as [_ Ix]. apply andb_true_iff in Ix. apply Ix. }
        assert (K : exists a b, a <> b /\ k = zkey a b).
        { pose proof (T i (or_introl eq_refl)) as Ti. unfold edgb in Ti. destruct (nth_error tris i) as [[[a b] c]|] eqn:Ei; [|discriminate].
          destruct (distinct _ _ _ _ Ei) as (N1 & N2 & N3).
          destruct (edge_dec k (zkey a b)) as [->|]; [eauto|]. destruct (edge_dec k (zkey a c)) as [->|]; [eauto|].
          destruct (edge_dec k (zkey b c)) as [->|]; [eauto|discriminate]. }
        destruct K as (a & b & Nab & ->).
        assert (T' : forall x, In x (i :: j :: m' :: l) -> touches tris a x /\ touches tris b x) by (intros x Ix; apply (edgb_touches tris distinct a b x Nab); auto).
        destruct (T' i) as [? ?]; [left; auto|]. destruct (T' j) as [? ?]; [right; left; auto|]. destruct (T' m') as [? ?]; [right; right; left; auto|].
        inversion Nd as [|? ? X1 Y]; subst. inversion Y as [|? ? X2 ?]; subst.
        destruct (dl_edge _ _ _ D a b i j m') as [Q|[Q|Q]]; auto; subst; [apply X1|apply X1|apply X2]; cbn; auto. }
      assert (B : (length l =? 1) || (length l =? 2) = true).
      { destruct l as [|i [|j l]]; [congruence|auto|]. cbn in L. destruct l; [auto|cbn in L; lia]. }
      rewrite B. cbn [assert bind]. apply IH. intros kv I. apply H. right. auto. }
    rewrite A by auto. cbn [bind].
    destruct (mfold_seq (fun (_ : unit) i => do s <- get (s_gen2tri st) i; assert (3 <=? length s)) (fun _ _ => True) ngen tt) as ([] & E & _); auto.
    intros p u Lp _. destruct (dl_star _ _ _ D p Lp) as (link & ts & S).
    destruct (g2t_ok f pts ngen tris st R distinct p) as (l & El & Nl & Il); [unfold pts; rewrite map_length, app_length; fold ngen; lia|auto|].
    rewrite (proj2 (get_ok _ _ _) El). cbn [bind].
    assert (L : 3 <= length l).
    { pose proof (st_size _ _ _ _ S). rewrite <- (st_same _ _ _ _ S) in H. etransitivity; [exact H|]. apply NoDup_incl_length; [apply (st_tris _ _ _ _ S)|].
      intros i Ii. apply Il, (st_all _ _ _ _ S). auto. }
    rewrite (proj2 (Nat.leb_le 3 _)) by auto. exists tt. auto.
  Qed.

  (* node k is the rounded circumcenter of its triangle *)
  Lemma tess_ok : gens <> [] -> exists st m edges cells, tri_tessellate f gens guards tris = Ok (s_nodes st, edges, cells) /\
    RI f pts ngen tris (length tris) st /\ Built ngen tris ngen (m, edges, cells) /\ Dual ngen tris (length (s_nodes st)) edges cells.
  Proof.
    intros Ne. unfold tri_tessellate. cbv zeta.
    assert (Lg : ngen <= length pts) by (unfold pts; rewrite map_length, app_length; fold ngen; lia).
    assert (Nt : tris <> []).
    { intros E. destruct (dl_star _ _ _ D 0) as (link & ts & S); [destruct gens; [congruence|cbn; lia]|].
      pose proof (st_size _ _ _ _ S) as Z. pose proof (st_same _ _ _ _ S) as Z'. destruct ts as [|i ts]; [cbn in *; lia|].
      destruct (proj1 (st_all _ _ _ _ S i) (or_introl eq_refl)) as (t & H & _). rewrite E in H. destruct i; discriminate. }
    destruct (Nat.eqb_spec (length tris) 0) as [E|_]; [destruct tris; [congruence|discriminate]|]. cbn [negb assert bind].
    destruct (read_tris_ok f pts ngen tris readable) as (st & E & R). fold pts. fold ngen. rewrite E. cbn [bind].
    rewrite (check_ok st R). cbn [bind].
    destruct (build_ok f pts ngen tris st R distinct Lg (dl_star _ _ _ D)) as (m & edges & cs & Eb & B). rewrite Eb. cbn [bind].
    exists st, m, edges, cs. split; auto. split; auto. split; auto. eapply dual_of; eauto; [exact distinct|exact (dl_star _ _ _ D)].
  Qed.
End Main.
