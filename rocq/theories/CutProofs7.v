(* Lemmas for CutProps.v: one cut of a cell. *)
From Verif Require Import Base BaseFacts Plane PLCSpec MeshEditorModel CutModel CutSpec CutProofs2 CutProofs4 CutProofs5 CutProofs6.
From Coq Require Import QArith Lqa Psatz Permutation.
Local Open Scope nat_scope.

Lemma ring_map {A B} (f : A -> B) l : ring (map f l) = map (fun ab => (f (fst ab), f (snd ab))) (ring l).
Proof.
  assert (C : forall (l m : list A), combine (map f l) (map f m) = map (fun ab => (f (fst ab), f (snd ab))) (combine l m)) by (induction l0; intros [|b m]; cbn; congruence).
  destruct l as [|h t]; auto. cbn [ring map]. rewrite <- C. f_equal. rewrite map_app. reflexivity.
Qed.
Lemma alternate_map {A B} (g : A -> B) (f : B -> bool) l : Alternate (fun v => f (g v)) l -> Alternate f (map g l).
Proof.
  intros (i & j & k & m & a & b & c & d & Ou & Ou' & H1 & H2 & H3 & H4 & R). exists i, j, k, m, (g a), (g b), (g c), (g d). rewrite !nth_error_map, H1, H2, H3, H4. repeat (split; auto).
Qed.
Lemma turn_ring {A} (l l' : list A) x y : Turn l l' -> In (x, y) (ring l') <-> In (x, y) (ring l).
Proof. intros (a & b & -> & ->). split; apply ring_turn. Qed.
Lemma turn_sc l l' : Turn l l' -> StrictlyConvex l -> StrictlyConvex l'.
Proof. intros (a & b & -> & ->). apply sc_turn. Qed.
Lemma turn_map {A B} (f : A -> B) l l' : Turn l l' -> Turn (map f l) (map f l').
Proof. intros (a & b & -> & ->). exists (map f a), (map f b). rewrite !map_app. auto. Qed.
Lemma turn_len {A} (l l' : list A) : Turn l l' -> length l' = length l.
Proof. intros (a & b & -> & ->). rewrite !app_length. lia. Qed.
Lemma turn_in {A} (l l' : list A) v : Turn l l' -> In v l' <-> In v l.
Proof. intros (a & b & -> & ->). rewrite !in_app_iff. tauto. Qed.
Lemma hd_nth {A} (d : A) l : l <> [] -> nth_error l 0 = Some (hd d l).
Proof. destruct l; [congruence|auto]. Qed.
Lemma last_nth {A} (d : A) l : l <> [] -> nth_error l (length l - 1) = Some (last l d).
Proof.
  intros N. induction l as [|a l IH]; [congruence|]. destruct l as [|b l]; auto. replace (length (a :: b :: l) - 1) with (S (length (b :: l) - 1)) by (cbn; lia). cbn [nth_error]. rewrite IH by discriminate. auto.
Qed.

(* every line of an old side is the line of the new one with the same label *)
Definition SameLine (a0 b0 a b : p2) := forall X Y Z, (X * fst a0 + Y * snd a0 + Z == 0 -> X * fst b0 + Y * snd b0 + Z == 0 -> X * fst a + Y * snd a + Z == 0 /\ X * fst b + Y * snd b + Z == 0)%Q.
Definition Sides x y rsq p_id (vs vs' : list corner) := forall a b, In (a, b) (ring vs') -> (snd a = p_id /\ vpos x y rsq a == 0 /\ vpos x y rsq b == 0)%Q \/
  exists a0 b0, In (a0, b0) (ring vs) /\ snd a = snd a0 /\ SameLine (fst a0) (fst b0) (fst a) (fst b).
Definition Clear x y rsq v := (vpos x y rsq v < - cut_tol \/ cut_tol < vpos x y rsq v)%Q.

Lemma region_half ps x y rsq q : StrictlyConvex ps -> 3 <= length ps -> Within ps q -> Forall (fun p => uu x y rsq p <= 0)%Q ps -> (uu x y rsq q <= 0)%Q.
Proof.
  intros SC L W F. rewrite Forall_forall in F. destruct (in_triangle ps q SC L W) as (a & b & c & Ia & Ib & Ic & P & A & B & C).
  apply F in Ia, Ib, Ic. pose proof (triangle_half x y (- rsq) a b c q P A B C) as T. unfold uu in *. lra.
Qed.
Lemma region_out ps x y rsq q : StrictlyConvex ps -> 3 <= length ps -> Within ps q -> Forall (fun p => 0 < uu x y rsq p)%Q ps -> (0 <= uu x y rsq q)%Q.
Proof.
  intros SC L W F. rewrite Forall_forall in F. destruct (in_triangle ps q SC L W) as (a & b & c & Ia & Ib & Ic & P & A & B & C).
  apply F in Ia, Ib, Ic. pose proof (triangle_half (- x) (- y) rsq a b c q P A B C) as T. unfold uu in *. lra.
Qed.

Section S.
  Variable (x y rsq : Q) (p_id : Z).
  Notation u := (vpos x y rsq).
  Lemma step_ok s vs : CellOf s vs -> StrictlyConvex (map fst vs) -> 3 <= length vs -> Forall (Clear x y rsq) vs ->
    (Forall (fun v => cut_tol < u v)%Q vs /\ nplane x y rsq p_id s = Ok (false, s)) \/
    ((exists v, In v vs /\ (u v < - cut_tol)%Q) /\ exists s' vs', nplane x y rsq p_id s = Ok (true, s') /\ CellOf s' vs' /\ StrictlyConvex (map fst vs') /\ 3 <= length vs' /\
      (forall q, Within (map fst vs') q <-> Within (map fst vs) q /\ (uu x y rsq q <= 0)%Q) /\ Sides x y rsq p_id vs vs').
  Proof.
    intros C SC L Cl. pose proof tol_pos as T0. rewrite Forall_forall in Cl. unfold Clear in Cl.
    destruct (arcs (fun v => Qlt_bool cut_tol (u v)) vs) as [(o & k & T & Fo & Fk)|Al]; [|exfalso; revert Al; intros Al; apply (no_alternate x y rsq (map fst vs) cut_tol SC); apply (alternate_map fst (fun p => Qlt_bool cut_tol (uu x y rsq p))); exact Al].
    assert (Fo' : Forall (fun v => cut_tol < u v)%Q o) by (revert Fo; apply Forall_impl; intros v; apply qlt_t).
    assert (Fk' : Forall (fun v => u v < - cut_tol)%Q k). { rewrite Forall_forall in *. intros v H. specialize (Fk v H). apply qlt_f in Fk. destruct (Cl v); auto; [apply (turn_in _ _ v T); apply in_or_app; auto|lra]. }
    assert (C' : CellOf s (o ++ k)) by (destruct T as (a & b & -> & ->); apply cell_turn; auto).
    assert (SC' : StrictlyConvex (map fst o ++ map fst k)) by (rewrite <- map_app; apply (turn_sc (map fst vs)); auto; apply turn_map; auto).
    pose proof (turn_len _ _ T) as L'.
    destruct o as [|o0 o]; [|destruct k as [|k0 k]].
    - right. cbn [app] in *. assert (Fv : Forall (fun v => u v < - cut_tol)%Q vs) by (rewrite Forall_forall in *; intros v H; apply Fk', (turn_in _ _ v T), H).
      destruct vs as [|v0 vs0]; [cbn in L; lia|]. split; [exists v0; split; [left; auto|inversion Fv; auto]|]. exists s, (v0 :: vs0). split; [apply (none_ok x y rsq p_id s (v0 :: vs0)); auto; revert Fv; apply Forall_impl; intros v; lra|].
      split; auto. split; auto. split; auto. split.
      + intros q. split; [|tauto]. intros W. split; auto. apply (region_half (map fst (v0 :: vs0))); auto; [rewrite map_length; auto|]. apply Forall_map. revert Fv. apply Forall_impl. intros v. unfold uu, vpos. lra.
      + intros a b R. right. exists a, b. split; auto. split; auto. intros X Y Z; auto.
    - left. rewrite app_nil_r in *. assert (Fv : Forall (fun v => cut_tol < u v)%Q vs) by (rewrite Forall_forall in *; intros v H; apply Fo', (turn_in _ _ v T), H). split; auto. apply (gone_ok x y rsq p_id s vs); auto.
    - right. set (Ou := o0 :: o) in *. set (K := k0 :: k) in *. assert (NO : Ou <> []) by discriminate. assert (NK : K <> []) by discriminate. split; [exists k0; split; [apply (turn_in _ _ k0 T), in_or_app; right; left; auto|inversion Fk'; auto]|].
      destruct (part_ok x y rsq p_id s Ou K o0) as (s' & E & CE); auto; [lia|revert Fk'; apply Forall_impl; intros v; lra|].
      unfold left_over in CE. assert (Hk0 : Qlt_bool (- cut_tol) (u (hd o0 K)) = false). { destruct (Qlt_bool (- cut_tol) (u (hd o0 K))) eqn:EQ; auto. apply qlt_t in EQ. rewrite Forall_forall in Fk'. specialize (Fk' (hd o0 K) ltac:(left; auto)). lra. }
      rewrite Hk0 in CE. set (vs' := K ++ [(crossing x y rsq (last K o0) (hd o0 Ou), p_id); (crossing x y rsq (hd o0 K) (last Ou o0), snd (last Ou o0))]) in *.
      pose proof (hd_nth o0 Ou NO) as N1. pose proof (last_nth o0 Ou NO) as N2. pose proof (hd_nth o0 K NK) as N3. pose proof (last_nth o0 K NK) as N4. remember (hd o0 Ou) as vo1. remember (last Ou o0) as vom. remember (hd o0 K) as vk1. remember (last K o0) as vkn.
      assert (M1 : nth_error (map fst Ou) 0 = Some (fst vo1)) by (apply map_nth_error; exact N1). assert (M2 : nth_error (map fst Ou) (length (map fst Ou) - 1) = Some (fst vom)) by (rewrite map_length; apply map_nth_error; exact N2).
      assert (M3 : nth_error (map fst K) 0 = Some (fst vk1)) by (apply map_nth_error; exact N3). assert (M4 : nth_error (map fst K) (length (map fst K) - 1) = Some (fst vkn)) by (rewrite map_length; apply map_nth_error; exact N4).
      assert (Uo : Forall (fun p => 0 < uu x y rsq p)%Q (map fst Ou)) by (apply Forall_map; revert Fo'; apply Forall_impl; intros v; unfold vpos, uu; lra). assert (Uk : Forall (fun p => uu x y rsq p < 0)%Q (map fst K)) by (apply Forall_map; revert Fk'; apply Forall_impl; intros v; unfold vpos, uu; lra).
      assert (LL : 3 <= length (map fst Ou ++ map fst K)) by (rewrite <- map_app, map_length; rewrite <- L' in L; exact L).
      assert (EP : map fst vs' = cutp x y rsq (map fst K) (fst vo1) (fst vom) (fst vk1) (fst vkn)) by (unfold vs', cutp; rewrite map_app; reflexivity).
      exists s', vs'. split; auto. split; auto. split; [rewrite EP; apply (cut_convex x y rsq (map fst Ou)); auto|]. split; [unfold vs'; rewrite app_length; cbn; lia|].
      split.
      + intros q. rewrite EP. rewrite (cut_region x y rsq (map fst Ou) (map fst K) (fst vo1) (fst vom) (fst vk1) (fst vkn)); auto. rewrite <- map_app. 
        assert (EW : Within (map fst (Ou ++ K)) q <-> Within (map fst vs) q). { pose proof (turn_map fst _ _ T) as T'. destruct T' as (a & b & -> & ->). split; apply within_turn. } tauto.
      + destruct (mixes x y rsq (map fst Ou) (map fst K) (fst vo1) (fst vom) (fst vk1) (fst vkn) M1 M2 M3 M4 Uo Uk) as (ss & tt & Hs & Ht & X2 & Y2 & X1 & Y1 & U2 & U1).
        assert (OldR : forall i a b, nth_error (K ++ Ou) i = Some a -> nth_error (K ++ Ou) (succ_in (length (K ++ Ou)) i) = Some b -> In (a, b) (ring vs)).
        { intros i a b A B. apply (turn_ring _ _ a b T). apply ring_turn. apply in_ring. exists i. auto. }
        assert (LK : length (K ++ Ou) = length K + length Ou) by apply app_length. assert (LK1 : 1 <= length K) by (cbn; lia). assert (LO1 : 1 <= length Ou) by (cbn; lia).
        assert (Lvs : length vs' = length K + 2) by (unfold vs'; rewrite app_length; auto).
        intros a b R. apply in_ring in R. destruct R as (i & A & B). rewrite Lvs in B. unfold succ_in in B.
        destruct (Nat.lt_ge_cases i (length K)) as [Ci|Ci].
        * unfold vs' in A. rewrite nth_error_app1 in A by auto. rewrite (proj2 (Nat.eqb_neq _ _)) in B by lia. destruct (Nat.eq_dec (S i) (length K)) as [Ei|Ei].
          -- unfold vs' in B. rewrite Ei, nth_error_app2, Nat.sub_diag in B by auto. cbn in B. injection B as <-. assert (a = vkn) by (replace (length K - 1) with i in N4 by lia; congruence). subst a.
             right. exists vkn, vo1. split; [apply (OldR i)|]. { rewrite nth_error_app1 by auto; auto. } { unfold succ_in. rewrite (proj2 (Nat.eqb_neq _ _)) by lia. rewrite Ei, nth_error_app2, Nat.sub_diag by auto. auto. }
             split; auto. intros X Y Z H1 H2. split; auto. cbn [fst]. unfold P2 in *. unfold crossing. change (u vkn) with (uu x y rsq (fst vkn)). change (u vo1) with (uu x y rsq (fst vo1)). rewrite X2, Y2.
             assert (I : (X * ((1 - ss) * fst (fst vkn) + ss * fst (fst vo1)) + Y * ((1 - ss) * snd (fst vkn) + ss * snd (fst vo1)) + Z == (1 - ss) * (X * fst (fst vkn) + Y * snd (fst vkn) + Z) + ss * (X * fst (fst vo1) + Y * snd (fst vo1) + Z))%Q) by ring. rewrite I, H1, H2. ring.
          -- unfold vs' in B. rewrite nth_error_app1 in B by lia. right. exists a, b. split; [apply (OldR i)|]. { rewrite nth_error_app1 by auto; auto. } { unfold succ_in. rewrite (proj2 (Nat.eqb_neq _ _)) by lia. rewrite nth_error_app1 by lia. auto. }
             split; auto. intros X Y Z; auto.
        * pose proof (nth_error_lt _ _ _ A) as Li. rewrite Lvs in Li. destruct (Nat.eq_dec i (length K)) as [Ei|Ei].
          -- subst i. rewrite (proj2 (Nat.eqb_neq _ _)) in B by lia. unfold vs' in A, B. rewrite nth_error_app2, Nat.sub_diag in A by auto. rewrite nth_error_app2 in B by lia. replace (S (length K) - length K) with 1 in B by lia. cbn in A, B. injection A as <-. injection B as <-. left. split; [reflexivity|]. split; [exact U2|exact U1].
          -- assert (Es : i = S (length K)) by lia. subst i. rewrite (proj2 (Nat.eqb_eq _ _)) in B by lia. unfold vs' in A, B. rewrite nth_error_app2 in A by lia. replace (S (length K) - length K) with 1 in A by lia. cbn in A. injection A as <-. rewrite nth_error_app1 in B by lia. assert (b = vk1) by congruence. subst b.
             right. exists vom, vk1. split; [apply (OldR (length K + length Ou - 1))|]. { rewrite nth_error_app2 by lia. rewrite <- N2. f_equal. lia. } { unfold succ_in. rewrite (proj2 (Nat.eqb_eq _ _)) by lia. rewrite nth_error_app1 by lia. auto. }
             split; auto. intros X Y Z H1 H2. split; auto. cbn [fst]. unfold P1 in *. unfold crossing. change (u vk1) with (uu x y rsq (fst vk1)). change (u vom) with (uu x y rsq (fst vom)). rewrite X1, Y1.
             assert (I : (X * ((1 - tt) * fst (fst vk1) + tt * fst (fst vom)) + Y * ((1 - tt) * snd (fst vk1) + tt * snd (fst vom)) + Z == (1 - tt) * (X * fst (fst vk1) + Y * snd (fst vk1) + Z) + tt * (X * fst (fst vom) + Y * snd (fst vom) + Z))%Q) by ring. rewrite I, H1, H2. ring.
  Qed.
End S.

Lemma stored_ok s vs : CellOf s vs -> exists ws, Permutation ws vs /\ vvertices s = Ok (map (fun v => (fst (fst v) * (1 # 2), snd (fst v) * (1 # 2))%Q) ws) /\ vneighbors s = Ok (map snd ws).
Proof.
  intros (c & ND & AL & _ & F). assert (P : Permutation c (seq 0 (vp s))) by (apply NoDup_Permutation; auto; [apply seq_NoDup|]; intros i; rewrite AL, in_seq; lia).
  destruct (Permutation_Forall2 P F) as (ws & P2 & F2). exists ws. split; [apply Permutation_sym; auto|]. unfold vvertices, vneighbors. clear - F2. induction F2 as [|i v l ws H F IH]; auto. cbn [mmap map]. unfold peek. rewrite H. cbn [bind]. destruct IH as [A B].
  unfold peek in A, B. rewrite A, B. auto.
Qed.
