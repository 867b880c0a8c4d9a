(* Border and corners as cleanEdges finds them. *)
From Verif Require Import Base BaseFacts StdAlg Rank SerializeModel MeshModel MeshSpec MeshProofs MeshProofs2
  KeyMapModel MeshEditorModel MeshEditorSpec MeshEditorProofs MeshEditorProofs2.
From Coq Require Import Lia Sorted QArith.
Local Open Scope nat_scope.

Lemma NoDup_app_disj {A} (l l' : list A) : NoDup l -> NoDup l' -> (forall x, In x l -> In x l' -> False) -> NoDup (l ++ l').
Proof.
  induction 1 as [|a t H N IH]; intros N' D; cbn; auto. constructor.
  - rewrite in_app_iff. intros [?|I]; auto. apply (D a); auto. left; auto.
  - apply IH; auto. intros x I I'. apply (D x); auto. right; auto.
Qed.

Lemma NoDup_concat {A} (L : list (list A)) : (forall i l, nth_error L i = Some l -> NoDup l) ->
  (forall i j l l' x, nth_error L i = Some l -> nth_error L j = Some l' -> In x l -> In x l' -> i = j) -> NoDup (concat L).
Proof.
  induction L as [|l L IH]; intros H D; cbn; [constructor|]. apply NoDup_app_disj.
  - apply (H 0); auto.
  - apply IH.
    + intros i l' Hi. apply (H (S i)); auto.
    + intros i j l1 l2 x H1 H2 I1 I2. assert (S i = S j) by (eapply D; eauto). lia.
  - intros x I I'. apply in_concat in I' as (l' & I1 & I2). apply In_nth_error in I1 as [j Hj].
    assert (0 = S j) by (apply (D 0 (S j) l l' x); auto). lia.
Qed.

Section Border.
  Context (m : mesh Q).
  Hypothesis WF : WellFormed 2 m.
  Hypothesis PL : Planar m.
  Hypothesis SB : simple_border m.

  Definition touches (n f : nat) : bool :=
    match nth_error (faces m) f with Some [a; b] => (a =? n) || (b =? n) | _ => false end.

  Lemma touches_iff n f : touches n f = true <-> exists b, segment m f n b.
  Proof.
    unfold touches, segment. destruct (nth_error (faces m) f) as [ns|] eqn:E.
    - destruct (pl_face _ PL _ _ E) as (a & b & -> & N). rewrite orb_true_iff, !Nat.eqb_eq. split.
      + intros [-> | ->]; eauto.
      + intros (c & [H|H]); inversion H; auto.
    - split; [discriminate|]. intros (b & [H|H]); discriminate.
  Qed.

  Lemma is_border_iff f : is_border m f = true <-> border_face m f.
  Proof.
    unfold is_border, border_face. destruct (nth_error (faceCells m) f) as [fc|].
    - rewrite Nat.eqb_eq. split; [eauto|]. intros (fc' & E & L); inversion E; subst; auto.
    - split; [discriminate|]. intros (fc' & E & _); discriminate.
  Qed.

  Lemma bf_eq n zs : map snd (filter (fun p => fst p =? n) (flat_map (bpushes m) zs)) =
    filter (touches n) (filter (is_border m) (map pid zs)).
  Proof.
    induction zs as [|z zs IH]; [reflexivity|]. cbn [flat_map map]. rewrite filter_app, map_app, IH.
    unfold bpushes at 1. cbn [filter]. destruct (is_border m (pid z)); [|reflexivity].
    cbn [filter]. unfold touches at 2. destruct (nth_error (faces m) (pid z)) as [ns|] eqn:E; [|reflexivity].
    destruct (pl_face _ PL _ _ E) as (a & b & -> & N). cbn [map filter fst].
    destruct (Nat.eqb_spec a n); destruct (Nat.eqb_spec b n); subst; try contradiction; reflexivity.
  Qed.

  Lemma border_once : NoDup (filter (is_border m) (map pid (concat (cells m)))).
  Proof.
    assert (E : filter (is_border m) (map pid (concat (cells m))) =
                concat (map (fun c => filter (is_border m) (map pid c)) (cells m))).
    { generalize (cells m). induction l as [|c l IH]; [reflexivity|]. cbn. rewrite map_app, filter_app, IH. auto. }
    rewrite E. apply NoDup_concat.
    - intros i l H. rewrite nth_error_map in H. destruct (nth_error (cells m) i) as [c|] eqn:C; [|discriminate].
      inversion H; subst. apply NoDup_filter. eapply pl_cell; eauto.
    - intros i j l l' f Hi Hj I I'. rewrite nth_error_map in Hi, Hj.
      destruct (nth_error (cells m) i) as [c|] eqn:C; [|discriminate].
      destruct (nth_error (cells m) j) as [c'|] eqn:C'; [|discriminate].
      inversion Hi; inversion Hj; subst. apply filter_In in I as [I B]. apply filter_In in I' as [I' _].
      apply is_border_iff in B as (fc & Hfc & L1).
      apply in_map_iff in I as (z & Ez & I). apply in_map_iff in I' as (z' & Ez' & I').
      assert (A : In (sign_cell z i) fc) by (eapply (wf_cell_face _ _ WF); eauto; rewrite Ez; auto).
      assert (A' : In (sign_cell z' j) fc) by (eapply (wf_cell_face _ _ WF); eauto; rewrite Ez'; auto).
      destruct fc as [|x [|y t]]; cbn in L1; try lia.
      destruct A as [A|[]], A' as [A'|[]]. rewrite <- (pid_sign_cell z i), <- (pid_sign_cell z' j). congruence.
  Qed.

  Lemma face_in_cell f : f < length (faces m) -> In f (map pid (concat (cells m))).
  Proof.
    intros L. rewrite <- (wf_fcs _ _ WF) in L. destruct (nth_error_ex _ _ L) as [fc Hfc].
    assert (exists z, In z fc) as [z Iz].
    { destruct (wf_fc _ _ WF _ _ Hfc); destruct fc as [|z t]; try discriminate; exists z; left; auto. }
    destruct (wf_face_cell _ _ WF _ _ _ Hfc Iz) as (c & Hc & I).
    apply in_map_iff. exists (sign_face z f). split; [apply pid_sign_face|].
    apply in_concat. exists c. split; auto. eapply nth_error_In; eauto.
  Qed.

  Lemma seg_lt f a b : segment m f a b -> f < length (faces m).
  Proof. intros [H|H]; eapply nth_error_lt; eauto. Qed.

  Let bp := flat_map (bpushes m) (concat (cells m)).
  Definition bfaces (n : nat) := filter (touches n) (filter (is_border m) (map pid (concat (cells m)))).

  Lemma bfaces_in n f : In f (bfaces n) <-> border_face m f /\ exists b, segment m f n b.
  Proof.
    unfold bfaces. rewrite !filter_In, touches_iff, is_border_iff. split; [tauto|].
    intros [B (b & S)]. split; [|eauto]. split; auto. apply face_in_cell. eapply seg_lt; eauto.
  Qed.

  Lemma border_in n : In n (unique (StdAlg.sort (map fst bp))) <-> border_node m n.
  Proof.
    rewrite unique_in, sort_in. unfold bp. split.
    - intros I. apply in_map_iff in I as ([x f] & <- & I). cbn [fst].
      assert (I2 : In f (bfaces x)).
      { unfold bfaces. rewrite <- bf_eq. apply in_map_iff. exists (x, f). split; auto. apply filter_In. split; auto.
        cbn [fst]. apply Nat.eqb_refl. }
      apply bfaces_in in I2 as (B & b & S). exists f, b. auto.
    - intros (f & b & B & S). assert (I : In f (bfaces n)) by (apply bfaces_in; eauto).
      unfold bfaces in I. rewrite <- bf_eq in I. apply in_map_iff in I as ([x g] & Eg & I).
      apply filter_In in I as [I E]. apply Nat.eqb_eq in E. cbn [fst snd] in *. subst.
      apply in_map_iff. exists (n, f). auto.
  Qed.

  Lemma bfaces_two n : border_node m n -> exists f0 f1, f0 <> f1 /\ bfaces n = [f0; f1].
  Proof.
    intros B. destruct (SB n B) as (f0 & f1 & N & H).
    assert (ND : NoDup (bfaces n)) by (apply NoDup_filter, border_once).
    assert (P : Permutation.Permutation (bfaces n) [f0; f1]).
    { apply Permutation.NoDup_Permutation; auto.
      - constructor; [intros [?|[]]; congruence|constructor; [intros []|constructor]].
      - intros f. rewrite bfaces_in, H. cbn. split; intros [?|?]; auto; destruct H0; auto; contradiction. }
    assert (L := Permutation.Permutation_length P). destruct (bfaces n) as [|g0 [|g1 [|]]]; try discriminate.
    exists g0, g1. split; auto. inversion ND; subst. intros ->. apply H2; left; auto.
  Qed.

  Lemma seg_node f a b : segment m f a b -> a < numNodes 2 m /\ b < numNodes 2 m /\ a <> b.
  Proof.
    intros S. assert (L := seg_lt _ _ _ S). destruct (face_ends m WF PL f L) as (x & y & H & N & Lx & Ly).
    destruct S as [S|S]; rewrite H in S; inversion S; subst; auto.
  Qed.

  Lemma corner_test_ok n : border_node m n ->
    exists b, corner_test 2 m bp n = Ok b /\ (b = true <-> corner m n).
  Proof.
    intros B. destruct (bfaces_two n B) as (f0 & f1 & N & E).
    assert (B0 : border_face m f0 /\ exists b, segment m f0 n b) by (apply bfaces_in; rewrite E; left; auto).
    assert (B1 : border_face m f1 /\ exists b, segment m f1 n b) by (apply bfaces_in; rewrite E; right; left; auto).
    destruct B0 as (B0 & p & S0), B1 as (B1 & q & S1).
    destruct (seg_node _ _ _ S0) as (Ln & Lp & Np). destruct (seg_node _ _ _ S1) as (_ & Lq & Nq).
    unfold corner_test. destruct (Nat.ltb_spec n (numNodes 2 m)); [|lia]. cbn [assert bind].
    unfold bp. rewrite bf_eq. fold (bfaces n). rewrite E. cbn [length Nat.eqb assert bind mmap].
    assert (Other : forall f b, border_face m f -> segment m f n b -> n <> b ->
      (do _ <- assert (f <? length (faces m));
       do fc <- get (faceCells m) f;
       do _ <- assert (length fc =? 1);
       do ns <- get (faces m) f;
       do _ <- assert (length ns =? 2);
       do n0 <- get ns 0;
       do n1 <- get ns 1;
       Ok (if n0 =? n then n1 else n0)) = Ok b).
    { intros f b (fc & Hfc & L1) S Nb. assert (L := seg_lt _ _ _ S).
      destruct (Nat.ltb_spec f (length (faces m))); [|lia]. cbn [assert bind].
      rewrite (proj2 (get_ok _ _ _) Hfc). cbn [bind]. rewrite L1. cbn [Nat.eqb assert bind].
      destruct S as [S|S]; rewrite (proj2 (get_ok _ _ _) S); cbn [bind length Nat.eqb assert get nth_error].
      - rewrite Nat.eqb_refl. reflexivity.
      - destruct (Nat.eqb_spec b n); [congruence|]. reflexivity. }
    rewrite (Other f0 p B0 S0 Np). cbn [bind]. rewrite (Other f1 q B1 S1 Nq). cbn [bind get nth_error].
    rewrite !coords_ok by auto. cbn [bind].
    eexists; split; [reflexivity|]. rewrite negb_true_iff. split.
    - intros C. exists f0, f1, p, q. auto.
    - intros (f & g & p' & q' & Bf & Bg & Sf & Sg & C).
      assert (If : In f (bfaces n)) by (apply bfaces_in; eauto).
      assert (Ig : In g (bfaces n)) by (apply bfaces_in; eauto).
      assert (U : forall f a b, segment m f n a -> segment m f n b -> a = b).
      { intros h a b Sa Sb. destruct (seg_node _ _ _ Sa) as (_ & _ & Na). destruct (seg_node _ _ _ Sb) as (_ & _ & Nb).
        destruct Sa as [Sa|Sa], Sb as [Sb|Sb]; rewrite Sa in Sb; inversion Sb; congruence. }
      rewrite E in If, Ig. destruct If as [<-|[<-|[]]]; destruct Ig as [<-|[<-|[]]].
      + rewrite (U f0 p' p Sf S0), (U f0 q' p Sg S0), collinear_same in C. discriminate.
      + rewrite (U f0 p' p Sf S0), (U f1 q' q Sg S1) in C. auto.
      + rewrite (U f1 p' q Sf S1), (U f0 q' p Sg S0) in C. rewrite collinear_comm. auto.
      + rewrite (U f1 p' q Sf S1), (U f1 q' q Sg S1), collinear_same in C. discriminate.
  Qed.

  Lemma corners_ok : exists l, corners 2 m bp (unique (StdAlg.sort (map fst bp))) = Ok l /\ (forall n, In n l <-> corner m n).
  Proof.
    unfold corners. set (B := unique (StdAlg.sort (map fst bp))).
    destruct (mfold_inv (fun acc n => do b <- corner_test 2 m bp n; Ok (if b then acc ++ [n] else acc))
      (fun l acc => forall n, In n acc <-> In n l /\ corner m n) B []) as (l & E & H).
    - intros n. cbn. tauto.
    - intros l1 n l2 s EB IH. destruct (corner_test_ok n) as (b & -> & Hb).
      { apply border_in. fold B. rewrite EB. apply in_or_app. right; left; auto. }
      cbn [bind]. eexists; split; [reflexivity|]. intros x. rewrite in_app_iff. destruct b.
      + rewrite in_app_iff, IH. cbn. split.
        * intros [[? ?]|[<-|[]]]; auto. split; auto. apply Hb; auto.
        * intros [[?|[<-|[]]] ?]; auto.
      + rewrite IH. cbn. split; [tauto|]. intros [[?|[<-|[]]] C]; auto. apply Hb in C; discriminate.
    - exists l; split; auto. intros n. rewrite H. split; [tauto|]. intros C. split; auto.
      apply border_in. destruct C as (f & g & p & q & Bf & Bg & Sf & Sg & C). exists f, p. auto.
  Qed.
End Border.
