(* The memory of the handles, for TesslProps.v *)
From Coq Require Import String.
From Verif Require Import Base BaseFacts SerializeModel MeshModel CTessModel CTessSpec TesslModel TesslSpec.
From Coq Require Import Lia.

Section Mem.
  Context {V : Type} (zn : bool).

  (* the k-th handle made is at 2k and its tessellator at 2k+1, until both are freed *)
  Definition duo (i : nat) (g : option (nat * cpp V)) : memory V :=
    match g with
    | None => [None; None]
    | Some (D, c) => [Some (if D =? 2 then OHandle (Ptr (S i)) Null else OHandle Null (Ptr (S i))); Some (OCpp c)]
    end.
  Fixpoint layout (i : nat) (g : list (option (nat * cpp V))) : memory V :=
    match g with [] => [] | x :: g => duo i x ++ layout (2 + i) g end.

  Lemma layout_length : forall g i, List.length (layout i g) = 2 * List.length g.
  Proof. induction g as [|x g IH]; intros i; auto. cbn [layout]. rewrite app_length, IH. cbn [List.length]. destruct x as [[D c]|]; cbn [duo List.length]; lia. Qed.
  Lemma layout_app : forall g h i, layout i (g ++ h) = layout i g ++ layout (2 * List.length g + i) h.
  Proof. induction g as [|x g IH]; intros h i; auto. cbn [layout List.app]. rewrite IH, app_assoc. f_equal. f_equal. cbn [List.length]. lia. Qed.
  Lemma layout_nth g k : nth_error (layout 0 g) (2 * k) = match nth_error g k with Some x => nth_error (duo (2 * k) x) 0 | None => None end
    /\ nth_error (layout 0 g) (S (2 * k)) = match nth_error g k with Some x => nth_error (duo (2 * k) x) 1 | None => None end.
  Proof.
    destruct (nth_error g k) as [x|] eqn:E.
    - apply nth_error_split in E as (g1 & g2 & -> & L). rewrite layout_app. cbn [layout]. rewrite L, Nat.add_0_r. subst k.
      split; (rewrite nth_error_app2; rewrite layout_length; [|lia]).
      + rewrite Nat.sub_diag. destruct x as [[D c]|]; reflexivity.
      + replace (S (2 * List.length g1) - 2 * List.length g1) with 1 by lia. destruct x as [[D c]|]; reflexivity.
    - apply nth_error_None in E. split; apply nth_error_None; rewrite layout_length; lia.
  Qed.
  Lemma upd_mid {A} (l1 : list A) x l2 y : upd (l1 ++ x :: l2) (List.length l1) y = l1 ++ y :: l2.
  Proof. induction l1 as [|z l1 IH]; cbn; auto. now rewrite IH. Qed.

  Lemma fields_of g a f : fields (layout 0 g) a = Ok f -> exists k D c, a = 2 * k /\ nth_error g k = Some (Some (D, c)) /\
    f = (if D =? 2 then (Ptr (S a), Null) else (Null, Ptr (S a))).
  Proof.
    intros H. unfold fields in H. destruct (Nat.even a) eqn:E.
    - apply Nat.even_spec in E as (k & ->). destruct (layout_nth g k) as [N _]. rewrite N in H. destruct (nth_error g k) as [[[D c]|]|] eqn:G; cbn in H; try discriminate.
      exists k, D, c. split; auto. split; auto. destruct (D =? 2); injection H as <-; auto.
    - assert (O : Nat.odd a = true) by (unfold Nat.odd; rewrite E; auto). apply Nat.odd_spec in O as (k & ->). rewrite Nat.add_1_r in H. destruct (layout_nth g k) as [_ N]. rewrite N in H.
      destruct (nth_error g k) as [[[D c]|]|]; cbn in H; discriminate.
  Qed.
  Lemma fields_at g k D c : nth_error g k = Some (Some (D, c)) -> fields (layout 0 g) (2 * k) = Ok (if D =? 2 then (Ptr (S (2 * k)), Null) else (Null, Ptr (S (2 * k)))).
  Proof. intros G. unfold fields. destruct (layout_nth g k) as [N _]. rewrite N, G. cbn [duo nth_error]. destruct (D =? 2); reflexivity. Qed.
  Lemma fields_gone g k : nth_error g k = Some None -> fields (layout 0 g) (2 * k) = UB.
  Proof. intros G. unfold fields. destruct (layout_nth g k) as [N _]. rewrite N, G. reflexivity. Qed.
  Lemma deref_at g k D c : nth_error g k = Some (Some (D, c)) -> deref (layout 0 g) (Ptr (S (2 * k))) = Ok c.
  Proof. intros G. unfold deref. destruct (layout_nth g k) as [_ N]. rewrite N, G. reflexivity. Qed.

  Lemma free_at g k D c : nth_error g k = Some (Some (D, c)) -> tesslFree (layout 0 g) (2 * k) = Ok (layout 0 (upd g k None)).
  Proof.
    intros G. unfold tesslFree. rewrite (fields_at g k D c G). cbn [bind].
    assert (R : (if notNull (fst (if D =? 2 then (Ptr (S (2 * k)), Null) else (Null, Ptr (S (2 * k)))))
                 then release (layout 0 g) (fst (if D =? 2 then (Ptr (S (2 * k)), Null) else (Null, Ptr (S (2 * k)))))
                 else release (layout 0 g) (snd (if D =? 2 then (Ptr (S (2 * k)), Null) else (Null, Ptr (S (2 * k)))))) = release (layout 0 g) (Ptr (S (2 * k)))).
    { destruct (D =? 2); reflexivity. }
    rewrite R. clear R. destruct (layout_nth g k) as [N0 N1]. rewrite G in N0, N1. unfold release. rewrite N1. cbn [duo nth_error bind].
    apply nth_error_split in G as (g1 & g2 & -> & L). subst k. rewrite upd_mid, !layout_app. cbn [layout duo List.app].
    set (h := if D =? 2 then _ else _). clearbody h. set (A := layout 0 g1). set (B := layout _ g2).
    assert (LA : List.length A = 2 * List.length g1) by (unfold A; apply layout_length).
    replace (A ++ Some h :: Some (OCpp c) :: B) with ((A ++ [Some h]) ++ Some (OCpp c) :: B) by (rewrite <- app_assoc; reflexivity).
    replace (S (2 * List.length g1)) with (List.length (A ++ [Some h])) by (rewrite app_length; cbn; lia). rewrite upd_mid, <- app_assoc. cbn [List.app].
    rewrite <- LA. rewrite nth_error_app2, Nat.sub_diag by lia. cbn [nth_error]. rewrite upd_mid. reflexivity.
  Qed.
  Lemma free_ok g a m : tesslFree (layout 0 g) a = Ok m -> exists k, a = 2 * k /\ (exists D c, nth_error g k = Some (Some (D, c))) /\ m = layout 0 (upd g k None).
  Proof.
    intros H. pose proof H as H0. unfold tesslFree in H0. apply bind_ok in H0 as (f & F & _). apply fields_of in F as (k & D & c & -> & G & _).
    exists k. split; auto. split; eauto. rewrite (free_at g k D c G) in H. congruence.
  Qed.

  Definition gstep (g : list (option (nat * cpp V))) (x : step) : list (option (nat * cpp V)) :=
    match x with
    | New2 c => g ++ [Some (2, c)]
    | New3 c => g ++ [Some (3, c)]
    | Free a => upd g (Nat.div2 a) None
    | _ => g
    end.
  Lemma step_layout g w x m w' : doStep zn (layout 0 g, w) x = Ok (m, w') -> m = layout 0 (gstep g x).
  Proof.
    intros H. destruct x; cbn [doStep gstep] in *;
      try (apply bind_ok in H as (w1 & _ & H); injection H as <- _; reflexivity).
    - injection H as <- _. unfold new2. cbn [fst]. rewrite layout_app. cbn [layout duo List.app]. rewrite layout_length, Nat.add_0_r. reflexivity.
    - injection H as <- _. unfold new3. cbn [fst]. rewrite layout_app. cbn [layout duo List.app]. rewrite layout_length, Nat.add_0_r. reflexivity.
    - apply bind_ok in H as (m1 & F & H). injection H as <- _. apply free_ok in F as (k & -> & _ & ->). rewrite Nat.div2_double. reflexivity.
  Qed.
  Definition ghost (l : list step) : list (option (nat * cpp V)) := fold_left gstep l [].
  Lemma run_layout : forall l g w m w', mfold (doStep zn) l (layout 0 g, w) = Ok (m, w') -> m = layout 0 (fold_left gstep l g).
  Proof.
    induction l as [|x l IH]; intros g w m w' H; cbn [mfold fold_left] in *; [congruence|].
    apply bind_ok in H as ((m1 & w1) & S1 & H). rewrite (step_layout g w x m1 w1 S1) in H. apply (IH _ _ _ _ H).
  Qed.
  Lemma run_ghost D0 l m w : run zn D0 l = Ok (m, w) -> m = layout 0 (ghost l).
  Proof. intros H. unfold run in H. apply bind_ok in H as (w0 & _ & H). apply (run_layout l [] w0 m w H). Qed.

  Lemma upd_length' {A} (l : list A) i x : List.length (upd l i x) = List.length l.
  Proof. revert i. induction l as [|y l IH]; intros [|i]; cbn; auto. Qed.
  Lemma upd_other {A} (l : list A) i k x : i <> k -> nth_error (upd l i x) k = nth_error l k.
  Proof. revert i k. induction l as [|y l IH]; intros [|i] [|k] H; cbn; auto; try congruence. Qed.
  Lemma upd_same {A} (l : list A) i x y : nth_error l i = Some y -> nth_error (upd l i x) i = Some x.
  Proof. revert i. induction l as [|z l IH]; intros [|i] H; cbn in *; try discriminate; auto. Qed.

  (* a handle that is not freed stays, one that is freed does not come back *)
  Lemma kept_step g w x m w' k v : doStep zn (layout 0 g, w) x = Ok (m, w') -> nth_error g k = Some v -> x <> Free (2 * k) -> nth_error (gstep g x) k = Some v.
  Proof.
    intros H G N. destruct x; cbn [gstep]; auto; try (rewrite nth_error_app1; auto; apply nth_error_Some; congruence).
    cbn [doStep] in H. apply bind_ok in H as (m1 & F & _). apply free_ok in F as (j & -> & _). rewrite Nat.div2_double. rewrite upd_other; auto.
  Qed.
  Lemma gone_step g x k : nth_error g k = Some None -> nth_error (gstep g x) k = Some None.
  Proof.
    intros G. destruct x; cbn [gstep]; auto; try (rewrite nth_error_app1; auto; apply nth_error_Some; congruence).
    destruct (Nat.eq_dec (Nat.div2 a) k) as [<-|N]; [eapply upd_same; eauto|rewrite upd_other; auto].
  Qed.
  Lemma gone_run l : forall g k, nth_error g k = Some None -> nth_error (fold_left gstep l g) k = Some None.
  Proof. induction l as [|x l IH]; intros g k G; cbn; auto. apply IH, gone_step, G. Qed.
  Lemma kept_run : forall l g w m w' k v, mfold (doStep zn) l (layout 0 g, w) = Ok (m, w') -> nth_error g k = Some v -> ~ In (Free (2 * k)) l -> nth_error (fold_left gstep l g) k = Some v.
  Proof.
    induction l as [|x l IH]; intros g w m w' k v H G N; cbn [mfold fold_left] in *; auto. apply bind_ok in H as ((m1 & w1) & S1 & H). pose proof (kept_step g w x m1 w1 k v S1 G) as K.
    rewrite (step_layout _ _ _ _ _ S1) in H. apply (IH _ _ _ _ k v H); [apply K; intros ->; apply N; left; auto|intros I; apply N; right; auto].
  Qed.
  Lemma dropped_run : forall l g w m w' k, mfold (doStep zn) l (layout 0 g, w) = Ok (m, w') -> k < List.length g -> In (Free (2 * k)) l -> nth_error (fold_left gstep l g) k = Some None.
  Proof.
    induction l as [|x l IH]; intros g w m w' k H G I; [destruct I|]. cbn [mfold fold_left] in *. apply bind_ok in H as ((m1 & w1) & S1 & H). rewrite (step_layout _ _ _ _ _ S1) in H.
    destruct I as [->|I].
    - apply gone_run. cbn [gstep]. rewrite Nat.div2_double. destruct (nth_error g k) eqn:E; [eapply upd_same; eauto|]. apply nth_error_None in E. lia.
    - apply (IH _ _ _ _ k H); auto. destruct x; cbn [gstep]; rewrite ?app_length, ?upd_length'; cbn [List.length]; lia.
  Qed.

  Lemma makes_ghost D c x g : Makes D c x -> gstep g x = g ++ [Some (D, c)].
  Proof. intros [(-> & ->)|(-> & ->)]; reflexivity. Qed.
  Lemma new_addr D (c : cpp V) m : snd (if D =? 2 then new2 c m else new3 c m) = List.length m.
  Proof. destruct (D =? 2); reflexivity. Qed.
  Lemma run_split D0 (l1 l2 : list (@step V)) s : run zn D0 (l1 ++ l2) = Ok s -> exists m1 w1, run zn D0 l1 = Ok (m1, w1) /\ mfold (doStep zn) l2 (m1, w1) = Ok s.
  Proof.
    unfold run. intros H. apply bind_ok in H as (w0 & T & H). rewrite mfold_app in H. apply bind_ok in H as ((m1 & w1) & H1 & H2). exists m1, w1. split; auto. apply bind_ok. eauto.
  Qed.
  Lemma held_ghost D0 l D c a m w : run zn D0 l = Ok (m, w) -> Held zn D0 l D c a -> exists k, a = 2 * k /\ nth_error (ghost l) k = Some (Some (D, c)).
  Proof.
    intros R (l1 & x & l2 & m1 & w1 & -> & M & R1 & -> & N). rewrite new_addr in *. pose proof (run_ghost _ _ _ _ R1) as ->. rewrite layout_length in *. eexists. split; [reflexivity|].
    change (x :: l2) with ([x] ++ l2) in *. rewrite app_assoc in *. apply run_split in R as (m2 & w2 & R2 & R). pose proof (run_ghost _ _ _ _ R2) as ->.
    unfold ghost at 1. rewrite fold_left_app. apply (kept_run l2 _ _ _ _ _ _ R); auto. fold (ghost (l1 ++ [x])). unfold ghost at 1. rewrite fold_left_app. cbn [fold_left]. fold (ghost l1).
    rewrite (makes_ghost D c x _ M), nth_error_app2, Nat.sub_diag by lia. reflexivity.
  Qed.
  Lemma dropped_ghost D0 l D c a m w : run zn D0 l = Ok (m, w) -> Dropped zn D0 l D c a -> exists k, a = 2 * k /\ nth_error (ghost l) k = Some None.
  Proof.
    intros R (l1 & x & l2 & m1 & w1 & -> & M & R1 & -> & N). rewrite new_addr in *. pose proof (run_ghost _ _ _ _ R1) as ->. rewrite layout_length in *. eexists. split; [reflexivity|].
    change (x :: l2) with ([x] ++ l2) in *. rewrite app_assoc in *. apply run_split in R as (m2 & w2 & R2 & R). pose proof (run_ghost _ _ _ _ R2) as ->.
    unfold ghost at 1. rewrite fold_left_app. apply (dropped_run l2 _ _ _ _ _ R); auto. unfold ghost. rewrite fold_left_app. cbn [fold_left]. rewrite (makes_ghost D c x _ M), app_length. cbn. lia.
  Qed.
  (* every live entry is a handle that is held *)
  Lemma ghost_held D0 : forall l m w k D c, run zn D0 l = Ok (m, w) -> nth_error (ghost l) k = Some (Some (D, c)) -> Held zn D0 l D c (2 * k).
  Proof.
    induction l as [|x l IH] using rev_ind; intros m w k D c R G; [destruct k; discriminate|].
    pose proof R as R0. apply run_split in R as (m1 & w1 & R1 & R). cbn [mfold] in R. apply bind_ok in R as (s & S1 & E). injection E as ->. pose proof (run_ghost _ _ _ _ R1) as ->.
    unfold ghost in G. rewrite fold_left_app in G. cbn [fold_left] in G. fold (ghost l) in G.
    assert (OLD : nth_error (ghost l) k = Some (Some (D, c)) -> x <> Free (2 * k) -> Held zn D0 (l ++ [x]) D c (2 * k)).
    { intros G' NF. destruct (IH _ _ k D c R1 G') as (l1 & y & l2 & m2 & w2 & -> & M & R2 & E & N). exists l1, y, (l2 ++ [x]), m2, w2. rewrite <- app_assoc. split; [reflexivity|]. repeat (split; auto).
      intros I. apply in_app_or in I as [I|[->|[]]]; auto. }
    assert (NEW : forall D' c', Makes D' c' x -> Held zn D0 (l ++ [x]) D c (2 * k)).
    { intros D' c' M. rewrite (makes_ghost D' c' x _ M) in G. destruct (Nat.lt_ge_cases k (List.length (ghost l))) as [L|L].
      - apply OLD; [rewrite nth_error_app1 in G; auto|]. destruct M as [(_ & ->)|(_ & ->)]; discriminate.
      - rewrite nth_error_app2 in G by auto. destruct (k - List.length (ghost l)) as [|j] eqn:J; [|destruct j; discriminate]. cbn in G. injection G as -> ->. exists l, x, [], (layout 0 (ghost l)), w1. repeat (split; auto).
        rewrite new_addr, layout_length. lia. }
    destruct x as [c'|c'|a| | | |]; cbn [gstep] in G.
    - apply (NEW 2 c'). left. auto.
    - apply (NEW 3 c'). right. auto.
    - cbn [doStep] in S1. apply bind_ok in S1 as (m2 & F & _). apply free_ok in F as (j & -> & _ & _). rewrite Nat.div2_double in G. destruct (Nat.eq_dec j k) as [->|N].
      + destruct (nth_error (ghost l) k) eqn:Q; [rewrite (upd_same _ _ _ _ Q) in G; discriminate|]. apply nth_error_None in Q. assert (k < List.length (upd (ghost l) k None)) by (apply nth_error_Some; congruence). rewrite upd_length' in H. lia.
      + apply OLD; [rewrite upd_other in G; auto|]. intros E. injection E as E. lia.
    - apply OLD; auto. discriminate.
    - apply OLD; auto. discriminate.
    - apply OLD; auto. discriminate.
    - apply OLD; auto. discriminate.
  Qed.
End Mem.
