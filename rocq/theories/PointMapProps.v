(* Theorems about IntPointMap: index (C09) and have (C10). *)
From Verif Require Import Base BaseFacts PointMapModel PointMapProofs.
Local Open Scope Z_scope.

(* ---- specification ---- *)
(* within the tolerance in every coordinate *)
Definition close (tol : Z) (p q : list Z) : Prop := Forall2 (fun a b => Z.abs (a - b) <= tol) p q.

(* The numbering a user expects.  F lists, in order of id, the points for which an id was
   created.  Each point either gets the id of the only earlier such point close to it, or,
   if none is close, the next unused id. *)
Inductive Numbered (tol : Z) : list (list Z) -> list (list Z) -> list nat -> list (list Z) -> Prop :=
| Num_nil F : Numbered tol F [] [] F
| Num_old F p ps k q ks F' :
    nth_error F k = Some q -> close tol q p ->
    (forall k' q', nth_error F k' = Some q' -> close tol q' p -> k' = k) ->
    Numbered tol F ps ks F' -> Numbered tol F (p :: ps) (k :: ks) F'
| Num_new F p ps ks F' :
    (forall q, In q F -> ~ close tol q p) ->
    Numbered tol (F ++ [p]) ps ks F' -> Numbered tol F (p :: ps) (length F :: ks) F'.

(* ---- C09 ---- *)
Lemma index_all_gen D tol : 0 <= tol -> (0 < D)%nat -> forall ps m F ks m',
  Forall (fun p => length p = D) ps -> Holds m D tol F -> index_all m ps = Ok (ks, m') ->
  exists F', Numbered tol F ps ks F' /\ Holds m' D tol F'.
Proof.
  intros T DP. induction ps as [|p ps IH]; intros m F ks m' FL H E.
  - inversion E; subst. exists F; split; [constructor|auto].
  - inversion FL; subst. cbn [index_all] in E.
    apply bind_ok in E as ([k m1] & E1 & E). apply bind_ok in E as ([ks' m2] & E2 & E).
    inversion E; subst.
    destruct (index_spec m (length p) tol F p T DP eq_refl H)
      as [(k0 & q & Hq & Nq & I & U)|[(k0 & k1 & q & q' & _ & _ & _ & _ & _ & I)|(Nn & m0 & I & H')]].
    + rewrite I in E1; inversion E1; subst.
      destruct (IH _ _ _ _ H3 H E2) as (F' & N & H'). exists F'; split; auto.
      eapply Num_old; eauto.
    + rewrite I in E1; discriminate.
    + rewrite I in E1; inversion E1; subst.
      destruct (IH _ _ _ _ H3 H' E2) as (F' & N & H''). exists F'; split; auto.
      apply Num_new; auto.
Qed.

(* every history that returns numbers the points as specified *)
Theorem index_history : forall D tol ps ks m,
  0 <= tol -> (0 < D)%nat -> Forall (fun p => length p = D) ps ->
  index_all (ipm_new D tol) ps = Ok (ks, m) ->
  exists F, Numbered tol [] ps ks F.
Proof.
  intros D tol ps ks m T DP FL E.
  destruct (index_all_gen D tol T DP ps _ [] ks m FL (new_holds D tol) E) as (F & N & _). eauto.
Qed.
Print Assumptions index_history.

(* two points are told apart by the tolerance: equal, or more than 2 tol apart somewhere *)
Definition separated (tol : Z) (p q : list Z) : Prop :=
  p = q \/ exists d, 2 * tol < Z.abs (nth d p 0 - nth d q 0).

Lemma close_nth tol p q d : 0 <= tol -> close tol p q -> Z.abs (nth d p 0 - nth d q 0) <= tol.
Proof.
  intros T C; revert d; induction C; intros [|d]; cbn; auto; try lia.
Qed.
Lemma close_refl tol p : 0 <= tol -> close tol p p.
Proof. intros T; induction p; constructor; auto; lia. Qed.

Lemma numbered_founders tol F ps ks F' : Numbered tol F ps ks F' ->
  exists G, F' = F ++ G /\ forall q, In q G -> In q ps.
Proof.
  induction 1 as [F|F p ps k q ks F' _ _ _ _ (G & E & I)|F p ps ks F' _ _ (G & E & I)].
  - exists []; split; [symmetry; apply app_nil_r|intros ? []].
  - exists G; split; auto. intros x Hx; right; auto.
  - exists (p :: G). split; [rewrite E, <- app_assoc; reflexivity|].
    intros x [->|Hx]; [left; auto|right; auto].
Qed.

Lemma index_all_total_gen D tol : 0 <= tol -> (0 < D)%nat -> forall ps m F,
  Forall (fun p => length p = D) ps -> Holds m D tol F ->
  (forall p q, In p (F ++ ps) -> In q (F ++ ps) -> separated tol p q) ->
  (forall i j q, nth_error F i = Some q -> nth_error F j = Some q -> i = j) ->
  exists ks m', index_all m ps = Ok (ks, m').
Proof.
  intros T DP. induction ps as [|p ps IH]; intros m F FL H Sep ND; [cbn; eauto|].
  inversion FL; subst. cbn [index_all].
  destruct (index_spec m (length p) tol F p T DP eq_refl H)
    as [(k0 & q & Hq & Nq & I & U)|[(k0 & k1 & q & q' & Ne & Hk & Hk' & Nq & Nq' & I)|(Nn & m0 & I & H')]].
  - rewrite I; cbn [bind]. destruct (IH m F H3 H) as (ks & m' & E); auto.
    { intros a b Ia Ib. apply Sep; apply in_or_app; [apply in_app_or in Ia as [|]|apply in_app_or in Ib as [|]];
      auto; right; right; auto. }
    rewrite E; cbn; eauto.
  - exfalso. destruct (Sep q q') as [->|[d Hd]].
    + apply in_or_app; left; eapply nth_error_In; eauto.
    + apply in_or_app; left; eapply nth_error_In; eauto.
    + apply Ne. eapply ND; eauto.
    + pose proof (close_nth tol q p d T Nq). pose proof (close_nth tol q' p d T Nq'). lia.
  - rewrite I; cbn [bind]. destruct (IH m0 (F ++ [p]) H3 H') as (ks & m' & E); auto.
    { rewrite <- app_assoc; cbn; auto. }
    { intros i j q Hi Hj. apply nth_error_snoc in Hi, Hj.
      destruct Hi as [Hi|[-> ->]], Hj as [Hj|[-> Ej]]; auto.
      - eapply ND; eauto.
      - subst. exfalso. apply (Nn p); [eapply nth_error_In; eauto|apply close_refl; auto].
      - exfalso. apply (Nn p); [eapply nth_error_In; eauto|apply close_refl; auto]. }
    rewrite E; cbn; eauto.
Qed.

(* the routine never aborts when the points are repeated or well separated *)
Theorem index_total : forall D tol ps,
  0 <= tol -> (0 < D)%nat -> Forall (fun p => length p = D) ps ->
  (forall p q, In p ps -> In q ps -> separated tol p q) ->
  exists ks m, index_all (ipm_new D tol) ps = Ok (ks, m).
Proof.
  intros D tol ps T DP FL Sep.
  apply (index_all_total_gen D tol T DP ps _ [] FL (new_holds D tol) Sep).
  intros [|i] j q H; discriminate.
Qed.
Print Assumptions index_total.

Lemma numbered_known tol F ps ks F' k q p n : 0 <= tol -> Numbered tol F ps ks F' ->
  nth_error F k = Some q -> close tol q p -> nth_error ps n = Some p -> nth_error ks n = Some k.
Proof.
  intros T N. revert n k q. induction N as [F|F p0 ps k0 q0 ks F' Hq C U N IH|F p0 ps ks F' Nn N IH];
    intros n k q Hk Cq Hn.
  - destruct n; discriminate.
  - destruct n as [|n]; cbn in *.
    + inversion Hn; subst. f_equal. symmetry; eapply U; eauto.
    + eapply IH; eauto.
  - destruct n as [|n]; cbn in *.
    + inversion Hn; subst. exfalso. apply (Nn q); auto. eapply nth_error_In; eauto.
    + eapply IH with (q:=q); eauto. apply nth_error_snoc; auto.
Qed.

(* an exactly repeated point always gets its old id *)
Theorem index_repeat : forall D tol ps ks m i j p,
  0 <= tol -> (0 < D)%nat -> Forall (fun p => length p = D) ps ->
  index_all (ipm_new D tol) ps = Ok (ks, m) ->
  nth_error ps i = Some p -> nth_error ps j = Some p -> nth_error ks i = nth_error ks j.
Proof.
  intros D tol ps ks m i j p T DP FL E Hi Hj.
  destruct (index_history D tol ps ks m T DP FL E) as (F & N). clear E FL m.
  revert i j Hi Hj. generalize dependent (@nil (list Z)). intros F0 N.
  assert (W : forall i j, (i < j)%nat -> nth_error ps i = Some p -> nth_error ps j = Some p ->
            nth_error ks i = nth_error ks j).
  { induction N as [F0|F0 p0 ps k0 q0 ks F' Hq C U N IH|F0 p0 ps ks F' Nn N IH]; intros i j L Hi Hj.
    - destruct i; discriminate.
    - destruct j as [|j]; [lia|]. destruct i as [|i]; cbn in *.
      + inversion Hi; subst. symmetry. eapply numbered_known; eauto.
      + apply IH; auto; lia.
    - destruct j as [|j]; [lia|]. destruct i as [|i]; cbn in *.
      + inversion Hi; subst. symmetry. eapply numbered_known with (q:=p); eauto.
        * apply nth_error_snoc; right; auto.
        * apply close_refl; auto.
      + apply IH; auto; lia. }
  intros i j Hi Hj. destruct (Nat.lt_trichotomy i j) as [L|[->|L]]; auto. symmetry; auto.
Qed.
Print Assumptions index_repeat.

(* ids are dense: exactly 0 .. (number of ids) - 1 are used *)
Theorem index_dense : forall D tol ps ks m,
  0 <= tol -> (0 < D)%nat -> Forall (fun p => length p = D) ps ->
  index_all (ipm_new D tol) ps = Ok (ks, m) ->
  exists n, forall k, In k ks <-> (k < n)%nat.
Proof.
  intros D tol ps ks m T DP FL E.
  destruct (index_history D tol ps ks m T DP FL E) as (F & N). exists (length F).
  assert (G : forall k, (In k ks \/ (k < length (@nil (list Z)))%nat) <-> (k < length F)%nat).
  { clear E FL m. induction N as [F0|F0 p0 ps k0 q0 ks F' Hq C U N IH|F0 p0 ps ks F' Nn N IH]; intros k.
    - cbn; tauto.
    - rewrite <- IH. cbn [In]. apply nth_error_lt in Hq. split; [intros [[->|?]|?]; auto|tauto].
    - rewrite <- IH, app_length. cbn [In length]. split.
      + intros [[<-|?]|?]; auto; right; lia.
      + intros [?|L]; auto. destruct (Nat.eq_dec (length F0) k); [left; auto|right; lia]. }
  intros k; rewrite <- G. cbn. split; [auto|intros [?|?]; [auto|lia]].
Qed.
Print Assumptions index_dense.

Lemma numbered_fun tol F0 ps ks F F2 :
  Numbered tol F0 ps ks F -> Numbered tol F0 ps ks F2 -> F = F2.
Proof.
  intros N. revert F2. induction N as [F|F p ps k q ks F' Hq C U N IH|F p ps ks F' Nn N IH];
    intros F2 N2; inversion N2; subst; auto.
  - apply nth_error_lt in Hq. lia.
  - match goal with H : nth_error F (length F) = Some _ |- _ => apply nth_error_lt in H; lia end.
Qed.

(* an ambiguous point (two ids within tolerance) is refused *)
Theorem index_ambiguous_aborts : forall D tol ps ks m F k k' q q' p,
  0 <= tol -> (0 < D)%nat -> Forall (fun p => length p = D) ps ->
  index_all (ipm_new D tol) ps = Ok (ks, m) -> Numbered tol [] ps ks F ->
  length p = D -> nth_error F k = Some q -> nth_error F k' = Some q' -> k <> k' ->
  close tol q p -> close tol q' p -> index m p = Abort.
Proof.
  intros D tol ps ks m F k k' q q' p T DP FL E N Lp Hk Hk' Ne C C'.
  destruct (index_all_gen D tol T DP ps _ [] ks m FL (new_holds D tol) E) as (F2 & N2 & H).
  pose proof (numbered_fun _ _ _ _ _ _ N N2); subst F2.
  destruct (index_spec m D tol F p T DP Lp H)
    as [(k0 & q0 & Hq & Nq & I & U)|[(k0 & k1 & q0 & q1 & Ne' & _ & _ & _ & _ & I)|(Nn & m0 & I & H')]].
  - exfalso. apply Ne. rewrite (U k q), (U k' q'); auto.
  - auto.
  - exfalso. apply (Nn q); auto. eapply nth_error_In; eauto.
Qed.
Print Assumptions index_ambiguous_aborts.

Example index_example :
  exists m, index_all (ipm_new 3 1) [[0;0;0]; [5;5;5]; [1;0;-1]; [5;0;0]; [5;5;5]]
            = Ok ([0; 1; 0; 2; 1]%nat, m).
Proof. eexists. vm_compute. reflexivity. Qed.
Example separated_example : forall p q, In p [[0;0]; [5;5]; [0;0]; [5;0]] ->
  In q [[0;0]; [5;5]; [0;0]; [5;0]] -> separated 1 p q.
Proof.
  intros p q [<-|[<-|[<-|[<-|[]]]]] [<-|[<-|[<-|[<-|[]]]]];
    first [left; reflexivity | right; exists 0%nat; cbn; lia | right; exists 1%nat; cbn; lia].
Qed.

(* ---- C10 ---- *)
(* in two dimensions have answers membership up to the tolerance, after any history *)
Theorem have_2d : forall tol ps ks m F p,
  0 <= tol -> Forall (fun p => length p = 2%nat) ps -> length p = 2%nat ->
  index_all (ipm_new 2 tol) ps = Ok (ks, m) -> Numbered tol [] ps ks F ->
  have m p = true <-> exists q, In q F /\ close tol q p.
Proof.
  intros tol ps ks m F p T FL Lp E N.
  destruct (index_all_gen 2 tol T ltac:(lia) ps _ [] ks m FL (new_holds 2 tol) E) as (F2 & N2 & H).
  pose proof (numbered_fun _ _ _ _ _ _ N N2); subst F2.
  apply (have_spec2 m tol F p T Lp H).
Qed.
Print Assumptions have_2d.

(* in any dimension have never denies a point that is present *)
Theorem have_no_false_negative : forall D tol ps ks m F p q,
  0 <= tol -> (0 < D)%nat -> Forall (fun p => length p = D) ps -> length p = D ->
  index_all (ipm_new D tol) ps = Ok (ks, m) -> Numbered tol [] ps ks F ->
  In q F -> close tol q p -> have m p = true.
Proof.
  intros D tol ps ks m F p q T DP FL Lp E N I C.
  destruct (index_all_gen D tol T DP ps _ [] ks m FL (new_holds D tol) E) as (F2 & N2 & H).
  pose proof (numbered_fun _ _ _ _ _ _ N N2); subst F2.
  exact (have_complete m D tol F p q T Lp H I C).
Qed.
Print Assumptions have_no_false_negative.

(* in three dimensions it reports points that were never indexed *)
Definition have_exact_3d : Prop := forall tol ps ks m F p,
  0 <= tol -> Forall (fun p => length p = 3%nat) ps -> length p = 3%nat ->
  index_all (ipm_new 3 tol) ps = Ok (ks, m) -> Numbered tol [] ps ks F ->
  have m p = true -> exists q, In q F /\ close tol q p.
Theorem have_3d_refuted : ~ have_exact_3d.
Proof.
  intros H. set (ps := [[0;0;9]; [0;9;0]]).
  destruct (index_all (ipm_new 3 0) ps) as [[ks m]| | |] eqn:E; [|discriminate..].
  assert (FL : Forall (fun p => length p = 3%nat) ps) by (repeat constructor).
  destruct (index_history 3 0 ps ks m ltac:(lia) ltac:(lia) FL E) as (F & N).
  assert (Hv : have m [0;0;0] = true).
  { vm_compute in E. inversion E; subst. vm_compute. reflexivity. }
  destruct (H 0 ps ks m F [0;0;0] ltac:(lia) FL eq_refl E N Hv) as (q & I & C).
  apply numbered_founders in N as (G & -> & Sub). cbn in I. apply Sub in I.
  destruct I as [<-|[<-|[]]]; inversion C as [|? ? ? ? ? C1]; subst;
    inversion C1 as [|? ? ? ? ? C2]; subst; inversion C2; subst; lia.
Qed.
Print Assumptions have_3d_refuted.
