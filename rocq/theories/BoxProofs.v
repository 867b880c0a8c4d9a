From Verif Require Import Base BaseFacts SerializeModel MeshModel QuantMeshModel PLCSpec PLCProofs BoxModel.
From Coq Require Import QArith Qround Lqa.
Local Open Scope nat_scope.

Lemma qmin_le a b : (qmin a b <= a /\ qmin a b <= b /\ (qmin a b = a \/ qmin a b = b))%Q.
Proof. unfold qmin. destruct (Qlt_le_dec b a); repeat split; auto; lra. Qed.
Lemma qmax_le a b : (a <= qmax a b /\ b <= qmax a b /\ (qmax a b = a \/ qmax a b = b))%Q.
Proof. unfold qmax. destruct (Qlt_le_dec a b); repeat split; auto; lra. Qed.

Lemma zip_len {A} f (l l' : list A) : length l = length l' -> length (zip f l l') = length l.
Proof. revert l'. induction l as [|a l IH]; intros [|b l'] H; try discriminate; cbn; auto. Qed.
Lemma zip_nth {A} f (l l' : list A) j a b : nth_error l j = Some a -> nth_error l' j = Some b -> nth_error (zip f l l') j = Some (f a b).
Proof. revert l' j. induction l as [|x l IH]; intros [|y l'] [|j] H H'; try discriminate; cbn in *; [congruence|]. auto. Qed.

(* running minimum/maximum over a list of boxes *)
Section Fold.
  Context (D : nat).
  Definition join (b c : list Q * list Q) : list Q * list Q := (zip qmin (fst b) (fst c), zip qmax (snd b) (snd c)).
  Definition lens (b : list Q * list Q) : Prop := length (fst b) = D /\ length (snd b) = D.
  Lemma fold_box ps b0 : lens b0 -> Forall lens ps ->
    let b := fold_left join ps b0 in lens b /\
    forall j l0 h0, nth_error (fst b0) j = Some l0 -> nth_error (snd b0) j = Some h0 ->
      exists l h, nth_error (fst b) j = Some l /\ nth_error (snd b) j = Some h /\
        (l <= l0)%Q /\ (h0 <= h)%Q /\
        (forall c x, In c ps -> nth_error (fst c) j = Some x -> (l <= x)%Q) /\
        (forall c x, In c ps -> nth_error (snd c) j = Some x -> (x <= h)%Q) /\
        (l = l0 \/ exists c, In c ps /\ nth_error (fst c) j = Some l) /\
        (h = h0 \/ exists c, In c ps /\ nth_error (snd c) j = Some h).
  Proof.
    cbn. revert b0. induction ps as [|p ps IH]; intros b0 [L1 L2] F; cbn [fold_left].
    - split; [split; auto|]. intros j l0 h0 H1 H2. exists l0, h0. repeat split; auto; try lra; intros; contradiction.
    - assert (Lp := Forall_inv F). assert (F' := Forall_inv_tail F). destruct Lp as [Lp1 Lp2].
      assert (LS : lens (join b0 p)) by (split; cbn; rewrite zip_len; congruence).
      destruct (IH (join b0 p) LS F') as [Lb H]. split; auto. intros j l0 h0 H1 H2.
      destruct (nth_error_ex (fst p) j) as [x Hx]; [rewrite Lp1, <- L1; eapply nth_error_lt; eauto|].
      destruct (nth_error_ex (snd p) j) as [y Hy]; [rewrite Lp2, <- L1; eapply nth_error_lt; eauto|].
      destruct (H j (qmin l0 x) (qmax h0 y)) as (l & h & Hl & Hh & Ll & Lh & Il & Ih & Al & Ah);
        [cbn; apply zip_nth; auto..|].
      destruct (qmin_le l0 x) as (M1 & M2 & M3), (qmax_le h0 y) as (N1 & N2 & N3).
      exists l, h. repeat split; auto; try lra.
      + intros c z [<-|I] Hz; [rewrite Hx in Hz; injection Hz as <-; lra|eapply Il; eauto].
      + intros c z [<-|I] Hz; [rewrite Hy in Hz; injection Hz as <-; lra|eapply Ih; eauto].
      + destruct Al as [-> | (p' & I & E)]; [|right; exists p'; split; [right|]; auto].
        destruct M3 as [-> | ->]; auto. right. exists p. split; [left|]; auto.
      + destruct Ah as [-> | (p' & I & E)]; [|right; exists p'; split; [right|]; auto].
        destruct N3 as [-> | ->]; auto. right. exists p. split; [left|]; auto.
  Qed.
End Fold.

(* the points of a flat array *)
Definition points_of {A} (D : nat) (pos : list A) : list (list A) := map (vertex D pos) (seq 0 (length pos / D)).
Lemma points_len {A} D (pos : list A) p : In p (points_of D pos) -> length p = D.
Proof.
  unfold points_of. intros I. apply in_map_iff in I as (i & <- & I). apply in_seq in I. apply vertex_length.
  pose proof (Nat.mul_div_le (length pos) D). destruct D; [cbn; lia|]. nia.
Qed.
Lemma points_in {A} D (pos : list A) p x : In p (points_of D pos) -> In x p -> In x pos.
Proof.
  unfold points_of, vertex. intros I Ix. apply in_map_iff in I as (i & <- & _).
  assert (F : forall (l : list A) n, incl (firstn n l) l) by (intros l n y Hy; rewrite <- (firstn_skipn n l); apply in_or_app; auto).
  assert (G : forall (l : list A) n, incl (skipn n l) l) by (intros l n y Hy; rewrite <- (firstn_skipn n l); apply in_or_app; auto).
  apply (G _ _ _ (F _ _ _ Ix)).
Qed.

Lemma local_box_fold D big pos : length pos mod D = 0 ->
  local_box D big pos = Ok (fold_left join (map (fun p => (p, p)) (points_of D pos)) (repeat big D, repeat (- big)%Q D)).
Proof.
  intros M. unfold local_box. rewrite M. cbn [Nat.eqb assert bind]. f_equal. unfold points_of. rewrite map_map.
  generalize (repeat big D, repeat (- big)%Q D). induction (seq 0 (length pos / D)) as [|i l IH]; intros [lo hi]; cbn [fold_left map]; auto.
Qed.
Lemma lens_pts D (pos : list Q) : Forall (lens D) (map (fun p => (p, p)) (points_of D pos)).
Proof. apply Forall_forall. intros c I. apply in_map_iff in I as (p & <- & I). apply points_len in I. split; auto. Qed.
Lemma lens0 D (a b : Q) : lens D (repeat a D, repeat b D).
Proof. split; apply repeat_length. Qed.

(* what a local box says about each coordinate *)
Lemma local_box_spec D big pos : length pos mod D = 0 -> (forall x, In x pos -> (- big <= x <= big)%Q) ->
  exists b, local_box D big pos = Ok b /\ lens D b /\
    forall j, j < D -> exists l h, nth_error (fst b) j = Some l /\ nth_error (snd b) j = Some h /\ (l <= big)%Q /\ (- big <= h)%Q /\
      (forall p x, In p (points_of D pos) -> nth_error p j = Some x -> (l <= x <= h)%Q) /\
      (l = big \/ exists p, In p (points_of D pos) /\ nth_error p j = Some l) /\
      (h = (- big)%Q \/ exists p, In p (points_of D pos) /\ nth_error p j = Some h).
Proof.
  intros M B. eexists. split; [apply local_box_fold; auto|].
  destruct (fold_box D _ _ (lens0 D big (- big)%Q) (lens_pts D pos)) as [L H]. cbn zeta in *. split; auto.
  intros j Lj. destruct (H j big (- big)%Q) as (l & h & Hl & Hh & L1 & L2 & I1 & I2 & A1 & A2); [apply nth_error_repeat; auto..|].
  exists l, h. repeat split; auto.
  - apply (I1 (p, p)); auto. apply in_map_iff. eauto.
  - apply (I2 (p, p)); auto. apply in_map_iff. eauto.
  - destruct A1 as [|(c & I & E)]; auto. right. apply in_map_iff in I as (p & <- & I). eauto.
  - destruct A2 as [|(c & I & E)]; auto. right. apply in_map_iff in I as (p & <- & I). eauto.
Qed.

(* truncation of a non-negative number *)
Lemma trunc_floor q : (0 <= q)%Q -> trunc q = Qfloor q.
Proof.
  intros H. unfold trunc. destruct q as [n d]. cbn. unfold Qle in H. cbn in H. apply Z.quot_div_nonneg; lia.
Qed.
Lemma trunc_spec q : (0 <= q)%Q -> (inject_Z (trunc q) <= q < inject_Z (trunc q) + 1)%Q /\ (0 <= trunc q)%Z.
Proof.
  intros H. rewrite trunc_floor by auto. split; [split; [apply Qfloor_le|]|].
  - pose proof (Qlt_floor q) as L. rewrite inject_Z_plus in L. exact L.
  - change 0%Z with (Qfloor 0). apply Qfloor_resp_le. auto.
Qed.
Lemma trunc_mono p q : (0 <= p)%Q -> (p <= q)%Q -> (trunc p <= trunc q)%Z.
Proof. intros H L. rewrite !trunc_floor by lra. apply Qfloor_resp_le. auto. Qed.
Lemma trunc_int q n : (q == inject_Z n)%Q -> (0 <= n)%Z -> trunc q = n.
Proof.
  intros E L. assert (0 <= q)%Q. { rewrite E. unfold inject_Z, Qle. cbn. lia. }
  rewrite trunc_floor by auto. rewrite E. apply Qfloor_Z.
Qed.
