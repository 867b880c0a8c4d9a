(* Proofs about what is put into a file. *)
From Coq Require Import String.
From Verif Require Import Base BaseFacts SerializeModel MeshModel MeshSpec HullProofs3 SiloModel SiloSpec.
Local Open Scope nat_scope.

(* ---- reading back ---- *)
Lemma map_of_nat_inj (a b : list nat) : map Z.of_nat a = map Z.of_nat b -> a = b.
Proof. revert b. induction a as [|x a IH]; intros [|y b] H; try discriminate; auto. injection H as E H. f_equal; [lia|auto]. Qed.
Lemma app_len_inj {A} (a b c d : list A) : length a = length c -> a ++ b = c ++ d -> a = c /\ b = d.
Proof. revert c. induction a as [|x a IH]; intros [|y c] L H; try discriminate; auto. injection H as -> H. apply IH in H as [-> ->]; auto. Qed.
Lemma zones_flat rings : Zones (flat_map (fun r => Z.of_nat (length r) :: zs r) rings) rings.
Proof. induction rings as [|r rs IH]; [constructor|]. cbn. exact (zones_cons r _ rs IH). Qed.
Lemma zones_det l rs : Zones l rs -> forall rs', Zones l rs' -> rs = rs'.
Proof.
  induction 1 as [|r l rs Z IH]; intros rs' Z'; inversion Z' as [|r' l' rs2 Z2]; auto.
  assert (L : length r' = length r) by lia. 
  match goal with K : _ ++ _ = _ ++ _ |- _ => apply app_len_inj in K as [A B]; [|rewrite !map_length; auto] end. apply map_of_nat_inj in A as ->. subst l'. f_equal. auto.
Qed.
Lemma pieces_concat {A} (rs : list (list A)) : Pieces (map (@length A) rs) (List.concat rs) rs.
Proof. induction rs; constructor; auto. Qed.
Lemma pieces_det {A} ks (l : list A) rs : Pieces ks l rs -> forall rs', Pieces ks l rs' -> rs = rs'.
Proof.
  induction 1 as [|r ks l rs P IH]; intros rs' P'; inversion P' as [|r' ks' l' rs2 P2]; auto. subst.
  match goal with K : _ ++ _ = _ ++ _ |- _ => apply app_len_inj in K as [-> ->]; auto end. f_equal; auto.
Qed.
Lemma pieces_len {A} ks (l : list A) rs : Pieces ks l rs -> ks = map (@length A) rs.
Proof. induction 1; cbn; congruence. Qed.
Lemma concat_inj {A} (a b : list (list A)) : map (@length A) a = map (@length A) b -> List.concat a = List.concat b -> a = b.
Proof. intros L C. apply (pieces_det (map (@length A) a) (List.concat a)); [apply pieces_concat|rewrite L, C; apply pieces_concat]. Qed.
Lemma concat_map_of_nat (l : list (list nat)) : zs (List.concat l) = List.concat (map zs l).
Proof. unfold zs. apply concat_map. Qed.
Lemma pieces_zs (rs : list (list nat)) : Pieces (map (@length nat) rs) (zs (List.concat rs)) (map zs rs).
Proof. rewrite concat_map_of_nat. replace (map (@length nat) rs) with (map (@length Z) (map zs rs)); [apply pieces_concat|]. rewrite map_map. apply map_ext. intros a. apply map_length. Qed.
Lemma map_zs_inj (a b : list (list nat)) : map zs a = map zs b -> a = b.
Proof. revert b. induction a as [|x a IH]; intros [|y b] H; try discriminate; auto. injection H as E H. f_equal; auto. apply map_of_nat_inj; auto. Qed.

Section Mesh.
  Context {V : Type}.
  Lemma coords_ok D k (m : mesh V) n : 0 < D -> k < D -> length (nodes m) = D * n ->
    exists x, coords D k m = Ok x /\ length x = n /\ forall i, i < n -> nth_error x i = nth_error (nodes m) (D * i + k).
  Proof.
    intros D0 K L. unfold coords. assert (length (nodes m) / D = n) as -> by (rewrite L, Nat.mul_comm, Nat.div_mul; lia).
    destruct (mmap_forall2 (fun i => get (nodes m) (D * i + k)) (fun i v => nth_error (nodes m) (D * i + k) = Some v) (seq 0 n)) as (x & E & F).
    - intros i I. apply in_seq in I. destruct (nth_error_ex (nodes m) (D * i + k)) as [v Hv]; [nia|]. exists v. split; auto. apply (proj2 (get_ok _ _ _) Hv).
    - exists x. split; auto. pose proof (Forall2_len _ _ _ F) as Lx. rewrite seq_length in Lx. split; auto. intros i I.
      destruct (nth_error_ex x i) as [v Hv]; [lia|]. rewrite Hv. destruct (Forall2_nth_r _ _ _ _ _ F Hv) as (j & Hj & R).
      rewrite (nth_error_nth' _ 0) in Hj by (rewrite seq_length; auto). rewrite seq_nth in Hj by auto. injection Hj as <-. cbn beta in R. congruence.
  Qed.
  (* the coordinates give the nodes *)
  Lemma coordinates_det D (m m' : mesh V) xs n : 0 < D -> Coordinates D m xs n -> Coordinates D m' xs n -> nodes m = nodes m'.
  Proof.
    intros D0 (L & Lx & H) (L' & _ & H'). apply nth_error_ext. intros i. destruct (Nat.lt_ge_cases i (D * n)).
    - destruct (nth_error_ex xs (i mod D)) as [x Hx]; [rewrite Lx; apply Nat.mod_upper_bound; lia|].
      destruct (H _ _ Hx) as [_ A]. destruct (H' _ _ Hx) as [_ B]. specialize (A (i / D)). specialize (B (i / D)).
      assert (i / D < n) by (apply Nat.div_lt_upper_bound; lia). rewrite <- (Nat.div_mod i D) in A, B by lia. rewrite <- A, <- B; auto.
    - rewrite !(proj2 (nth_error_None _ _)); auto; lia.
  Qed.

  Lemma starts_det (m : mesh V) z a b : Starts m z a -> Starts m z b -> a = b.
  Proof. intros (l & L & A) (l' & L' & B). congruence. Qed.
  Lemma ends_det (m : mesh V) z a b : Ends m z a -> Ends m z b -> a = b.
  Proof. intros (l & L & A) (l' & L' & B). congruence. Qed.
  Lemma starts_in (m : mesh V) z n : WellFormed 2 m -> Starts m z n -> n < length (nodes m) / 2.
  Proof. intros W (l & L & A). pose proof (wf_faces _ _ W _ _ _ L (nth_error_In _ _ A)). apply Nat.div_le_lower_bound; lia. Qed.
  Definition nodeOf (m : mesh V) (k : Z) : res nat :=
    if (0 <=? k)%Z then do f <- get (faces m) (Z.to_nat k); get f 0 else do f <- get (faces m) (Z.to_nat (Z.lnot k)); get f 1.
  Lemma nodeOf_ok (m : mesh V) z n : nodeOf m z = Ok n <-> Starts m z n.
  Proof.
    unfold nodeOf, Starts, pid, positiveID. split.
    - destruct (0 <=? z)%Z; intros H; apply bind_ok in H as (f & F & G); apply get_ok in F; apply get_ok in G; eauto.
    - intros (f & F & G). destruct (0 <=? z)%Z; rewrite (proj2 (get_ok _ _ _) F); cbn [bind]; apply get_ok; auto.
  Qed.
  Lemma traverse_ok (m : mesh V) i c : Planar m -> nth_error (cells m) i = Some c -> exists r, traverseNodes m i = Ok r /\ Traces m c r.
  Proof.
    intros P C. pose proof (nth_error_In _ _ C) as Ic. unfold traverseNodes. rewrite (proj2 (get_ok _ _ _) C). cbn [bind].
    assert (Ok1 : forall z, In z c -> exists n, Starts m z n).
    { intros z I. pose proof (wf_cells _ _ (pl_wf _ P) _ _ _ C I) as B. destruct (nth_error_ex _ _ B) as [ns N].
      pose proof (pl_faces _ P _ (nth_error_In _ _ N)) as L2. destruct (nth_error_ex ns (if (0 <=? z)%Z then 0 else 1)) as [n Hn]; [destruct (0 <=? z)%Z; lia|]. exists n, ns. auto. }
    destruct (mmap_forall2 (nodeOf m) (Starts m) c) as (ns & E & F).
    { intros z I. destruct (Ok1 z I) as [n S]. exists n. split; auto. apply nodeOf_ok; auto. }
    fold (nodeOf m). change (mmap _ c) with (mmap (nodeOf m) c). rewrite E. cbn [bind].
    pose proof (Forall2_len _ _ _ F) as Ln. assert (0 < length c) by (pose proof (pl_cells _ P _ Ic); destruct c; [congruence|cbn; lia]).
    destruct (nth_error_ex ns 0) as [a Ha]; [lia|]. rewrite (proj2 (get_ok _ _ _) Ha). cbn [bind]. cbv zeta.
    assert (forallb (fun n => n <? length (nodes m) / 2) (ns ++ [a]) = true) as ->.
    { apply forallb_forall. intros n I. apply Nat.ltb_lt. assert (In n ns) as I'. { apply in_app_iff in I as [I|[<-|[]]]; auto. apply nth_error_In in Ha; auto. }
      destruct (Forall2_in_r _ _ _ _ F I') as (z & _ & S). apply (starts_in m z); auto. apply (pl_wf _ P). }
    cbn [assert bind]. exists (ns ++ [a]). split; auto. split; [rewrite app_length; cbn; lia|]. split.
    - rewrite nth_error_app1, nth_error_app2 by lia. replace (length c - length ns) with 0 by lia. auto.
    - intros j z J. assert (j < length c) by (apply nth_error_Some; congruence).
      destruct (Forall2_nth _ _ _ _ _ F J) as (n & N & St). assert (exists z', nth_error c (S j mod length c) = Some z') as [z' Z'] by (apply nth_error_ex, Nat.mod_upper_bound; lia).
      destruct (pl_walk _ P _ _ _ _ Ic J Z') as (b & B & B'). exists n, b. repeat split; auto; [rewrite nth_error_app1; auto; lia|].
      destruct (Forall2_nth _ _ _ _ _ F Z') as (b' & N' & S'). rewrite (starts_det _ _ _ _ B' S').
      destruct (Nat.eq_dec (S j) (length c)) as [Q|Q].
      + rewrite Q, Nat.mod_same in N' by lia. rewrite nth_error_app2 by lia. replace (S j - length ns) with 0 by lia. cbn. congruence.
      + rewrite Nat.mod_small in N' by lia. rewrite nth_error_app1 by lia. auto.
  Qed.
  Lemma rings_ok (m : mesh V) : Planar m -> exists rings, mmap (traverseNodes m) (seq 0 (length (cells m))) = Ok rings /\ Forall2 (Traces m) (cells m) rings.
  Proof.
    intros P. destruct (mmap_forall2 (traverseNodes m) (fun i r => exists c, nth_error (cells m) i = Some c /\ Traces m c r) (seq 0 (length (cells m)))) as (rings & E & F).
    - intros i I. apply in_seq in I. destruct (nth_error_ex (cells m) i) as [c C]; [lia|]. destruct (traverse_ok m i c P C) as (r & R & T). eauto.
    - exists rings. split; auto. pose proof (Forall2_len _ _ _ F) as L. rewrite seq_length in L. apply forall2_of_nth; auto. intros i c r C R.
      destruct (Forall2_nth_r _ _ _ _ _ F R) as (j & Hj & c' & C' & T). assert (i < length (cells m)) by (apply nth_error_Some; congruence).
      rewrite (nth_error_nth' _ 0), seq_nth in Hj by (rewrite ?seq_length; auto). injection Hj as <-. cbn in C'. congruence.
  Qed.
End Mesh.
