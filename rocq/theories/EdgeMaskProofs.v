(* Exchanging edge masks: the messages. *)
From Verif Require Import Base BaseFacts StdAlg SerializeModel SerializeSpec SerializeProofs MeshModel KeyMapModel MeshEditorModel MpiModel MpiSpec MpiProofs2 ExchangeModel CheckModel DistModel EdgeMaskModel ExchangeProofs2.
From Coq Require Import Lia.

Definition ser (mask : list nat) : list Z := serialize (TVec TUnsigned) (map Z.of_nat mask).
Definition small (mask : list nat) : Prop := Forall (fun v => v <= 1) mask /\ (Z.of_nat (length mask) < 2 ^ 32)%Z.
Lemma enc_len4 (l : list Z) : length (flat_map (scalar_enc 4) l) = 4 * length l.
Proof. induction l as [|x l IH]; [reflexivity|]. cbn [flat_map length]. rewrite app_length, IH. unfold scalar_enc. rewrite le_bytes_length. lia. Qed.
Lemma ser_len4 mask : small mask -> length (ser mask) = 4 + 4 * length mask.
Proof.
  intros [_ L]. unfold ser. cbn [serialize TUnsigned]. unfold vec_enc. rewrite app_length. unfold scalar_enc at 1. rewrite le_bytes_length. rewrite usize_small by (change (Z.of_nat (@length Z (map Z.of_nat mask)) < 2 ^ 32)%Z; rewrite map_length; auto). rewrite Nat2Z.id, firstn_all. change (4 + length (flat_map (scalar_enc 4) (map Z.of_nat mask)) = 4 + 4 * length mask). rewrite enc_len4, map_length. auto.
Qed.
Lemma unser mask rest : small mask -> deserialize (TVec TUnsigned) true [] (ser mask ++ rest) = Ok (map Z.of_nat mask, rest).
Proof.
  intros [F L]. unfold ser. apply (roundtrip (TVec TUnsigned) true (map Z.of_nat mask) rest). split.
  - change (Z.of_nat (@length Z (map Z.of_nat mask)) < 2 ^ 32)%Z. rewrite map_length. auto.
  - apply Forall_map. eapply Forall_impl; [|exact F]. intros v Lv. cbn beta in Lv. cbn. split; [lia|]. unfold fits_scalar. cbn. lia.
Qed.
Lemma back_nat mask : map Z.to_nat (map Z.of_nat mask) = mask.
Proof. rewrite map_map. rewrite (map_ext _ (fun x => x)) by (intros; apply Nat2Z.id). apply map_id. Qed.

(* what is sent *)
Fixpoint mout (buf : list Z) (todo : list (nat * list nat)) : list (nat * nat * gmsg) :=
  match todo with
  | [] => []
  | (o, mask) :: t => (o, 1, GSize (Z.of_nat (length (buf ++ ser mask)))) :: (o, 2, GBytes (buf ++ ser mask)) :: mout (buf ++ ser mask) t
  end.
Lemma sends_masks {A} (k : prog gmsg A) todo : forall buf, Forall small (map snd todo) -> (Z.of_nat (length (buf ++ flat_map ser (map snd todo))) < 2 ^ 32)%Z -> maskSends buf todo k = sends (mout buf todo) k.
Proof.
  induction todo as [|[o mask] t IH]; intros buf F L; [reflexivity|]. cbn [map snd flat_map] in L, F. inversion F as [|? ? F1 F2]; subst. rewrite app_assoc in L. cbn [maskSends mout sends]. fold (ser mask). cbv zeta.
  assert (U : usize (buf ++ ser mask) = Z.of_nat (length (buf ++ ser mask))). { apply usize_small. rewrite app_length in L. rewrite Nat2Z.inj_add in L. lia. }
  rewrite U. pose proof (ser_len4 mask F1) as E. destruct (Z.ltb_spec 0 (Z.of_nat (length (buf ++ ser mask)))); [|rewrite app_length in *; lia]. rewrite IH; auto.
Qed.
(* what the i-th receiver gets *)
Lemma to_none r t todo : forall buf, ~ In r (map fst todo) -> to_ r t (mout buf todo) = [].
Proof.
  induction todo as [|[o mask] todo IH]; intros buf N; [reflexivity|]. cbn [map fst] in N. cbn [mout]. rewrite !to_cons. destruct (Nat.eqb_spec o r) as [->|]; [exfalso; apply N; left; auto|]. cbn [andb app]. apply IH. intros I. apply N. right. auto.
Qed.
Lemma to_masks r i todo : forall buf, NoDup (map fst todo) -> nth_error (map fst todo) i = Some r ->
  to_ r 1 (mout buf todo) = [GSize (Z.of_nat (length (buf ++ flat_map ser (firstn (S i) (map snd todo)))))] /\ to_ r 2 (mout buf todo) = [GBytes (buf ++ flat_map ser (firstn (S i) (map snd todo)))].
Proof.
  revert i. induction todo as [|[o mask] todo IH]; intros i buf ND E; [destruct i; discriminate|]. cbn [map fst] in *. inversion ND as [|? ? N1 N2]; subst. cbn [mout]. rewrite !to_cons. destruct i as [|i]; cbn [nth_error] in E.
  - injection E as ->. rewrite Nat.eqb_refl. cbn [andb Nat.eqb app map snd]. rewrite !to_none by auto. cbn [firstn flat_map]. rewrite app_nil_r. auto.
  - assert (o <> r) by (intros ->; apply N1; eapply nth_error_In; eauto). destruct (Nat.eqb_spec o r); [contradiction|]. cbn [andb app]. destruct (IH i (buf ++ ser mask) N2 E) as [-> ->]. cbn [map snd]. rewrite !(firstn_cons (S i)). cbn [flat_map]. rewrite !app_assoc. auto.
Qed.

(* ranks exchanging masks ms r with neighbors nb r *)
Section Wire.
  Context {A : Type} (n : nat) (nb : nat -> list nat) (ms : nat -> list (list nat)) (k : nat -> list (list nat) -> res A).
  Hypothesis Len : forall r, r < n -> length (ms r) = length (nb r).
  Hypothesis Nd : forall r, r < n -> NoDup (nb r).
  Hypothesis Rg : forall r s, r < n -> In s (nb r) -> s < n.
  Hypothesis Mu : forall r s, r < n -> In s (nb r) -> In r (nb s).
  Hypothesis Sm : forall r, r < n -> Forall small (ms r) /\ (Z.of_nat (length (flat_map ser (ms r))) < 2 ^ 32)%Z.

  (* rank s lists r first, with mask m *)
  Definition First (r s : nat) (m : list nat) : Prop := nth_error (nb s) 0 = Some r /\ nth_error (ms s) 0 = Some m.
  Lemma combine_fst {X Y} (l : list X) : forall l' : list Y, length l' = length l -> map fst (combine l l') = l /\ map snd (combine l l') = l'.
  Proof. induction l as [|a l IH]; intros [|b l'] E; try discriminate; auto. cbn. destruct (IH l') as [-> ->]; auto. Qed.
  Definition box (r : nat) : nat -> nat -> list gmsg := fun s t => if s <? n then to_ r t (mout [] (combine (nb s) (ms s))) else [].
  Lemma box_is r s : r < n -> In s (nb r) -> exists i, nth_error (nb s) i = Some r /\ i < length (ms s) /\
    box r s 1 = [GSize (Z.of_nat (length (flat_map ser (firstn (S i) (ms s)))))] /\ box r s 2 = [GBytes (flat_map ser (firstn (S i) (ms s)))].
  Proof.
    intros L I. pose proof (Rg r s L I) as Ls. pose proof (Mu r s L I) as I'. apply In_nth_error in I' as [i E]. exists i. split; auto. split; [rewrite Len by auto; eapply nth_error_lt; eauto|].
    destruct (combine_fst (nb s) (ms s) (Len s Ls)) as [E1 E2]. unfold box. destruct (Nat.ltb_spec s n); [|lia]. destruct (to_masks r i (combine (nb s) (ms s)) []) as [A1 A2]; [rewrite E1; apply Nd; auto|rewrite E1; auto|]. rewrite A1, A2, E2. auto.
  Qed.
  Lemma gets_masks r l : forall b acc, NoDup l ->
    (forall s, In s l -> s < n /\ exists i m0 rest, nth_error (nb s) i = Some r /\ ms s = m0 :: rest /\ Forall small (ms s) /\ i < length (ms s) /\
       b s 1 = [GSize (Z.of_nat (length (flat_map ser (firstn (S i) (ms s)))))] /\ b s 2 = [GBytes (flat_map ser (firstn (S i) (ms s)))]) ->
    exists c a, gets c b (maskRecvs l acc (fun t => Ret (k r t))) a /\
      ((exists s, In s l /\ nth_error (nb s) 0 <> Some r) -> a = Abort) /\
      (forall ts, Forall2 (First r) l ts -> a = k r (acc ++ ts)).
  Proof.
    induction l as [|s l IH]; intros b acc ND H.
    - exists 0, (k r acc). split; [constructor|]. split; [intros (s & [] & _)|]. intros ts F. inversion F; subst. rewrite app_nil_r. auto.
    - inversion ND as [|? ? N1 N2]; subst. destruct (H s ltac:(left; auto)) as (Ls & i & m0 & rest & Ei & Em & Fs & Li & B1 & B2). rewrite Em in Fs. inversion Fs as [|? ? F1 F2]; subst.
      assert (Eb : flat_map ser (firstn (S i) (ms s)) = ser m0 ++ flat_map ser (firstn i rest)) by (rewrite Em; reflexivity).
      destruct (IH (fun x z => if (x =? s) && (z =? 2) then [] else if (x =? s) && (z =? 1) then [] else b x z) (acc ++ [m0]) N2) as (c & a & G & A1 & A2).
      { intros q Iq. destruct (H q ltac:(right; auto)) as (Lq & i' & m' & rest' & E1 & E2 & E3 & E4 & E5 & E6). assert (q <> s) by (intros ->; auto). split; auto. exists i', m', rest'. destruct (Nat.eqb_spec q s); [contradiction|]. cbn [andb]. auto 10. }
      set (a' := if i =? 0 then a else Abort). set (c' := if i =? 0 then c else 0). exists (S (S c')), a'. split.
      + cbn [maskRecvs]. apply gets_recv with (m := GSize (Z.of_nat (length (flat_map ser (firstn (S i) (ms s)))))) (rest := []); auto. pose proof (ser_len4 m0 F1) as E4.
        destruct (Z.ltb_spec 0 (Z.of_nat (length (flat_map ser (firstn (S i) (ms s)))))); [|rewrite Eb, app_length in *; lia].
        apply gets_recv with (m := GBytes (flat_map ser (firstn (S i) (ms s)))) (rest := []); [rewrite Nat.eqb_refl; auto|]. rewrite Z.eqb_refl. rewrite Eb, unser by auto. cbn [lift].
        unfold a', c'. destruct i as [|i].
        * cbn [firstn flat_map isnil assert lift Nat.eqb]. rewrite back_nat. exact G.
        * destruct rest as [|m1 rest]; [rewrite Em in Li; cbn in Li; lia|]. inversion F2 as [|? ? F3 F4]; subst. pose proof (ser_len4 m1 F3) as E5. cbn [firstn flat_map Nat.eqb].
          destruct (ser m1 ++ flat_map ser (firstn i rest)) eqn:Ex; [apply (f_equal (@length Z)) in Ex; rewrite app_length in Ex; cbn [length] in Ex; lia|]. cbn [isnil assert lift]. constructor.
      + split.
        * intros (q & [<-|Iq] & Nq); unfold a'; destruct (Nat.eqb_spec i 0) as [->|]; auto; [contradiction|apply A1; eauto].
        * intros ts F. inversion F as [|? m ? ts' [X1 X2] F']; subst. assert (i = 0). { pose proof (Nd s Ls) as NDs. rewrite NoDup_nth_error in NDs. apply NDs; [eapply nth_error_lt; eauto|congruence]. }
          subst i. unfold a'. cbn [Nat.eqb]. rewrite Em in X2. injection X2 as ->. rewrite (A2 ts' F'). rewrite <- app_assoc. auto.
  Qed.
  Lemma wire_ok (ps : nat -> prog gmsg A) : (forall r, r < n -> ps r = maskSends [] (combine (nb r) (ms r)) (maskRecvs (nb r) [] (fun t => Ret (k r t)))) -> (forall r, n <= r -> exists b, ps r = Ret b) ->
    exists a, Finishes n ps a /\
    forall r, r < n -> ((exists s, In s (nb r) /\ nth_error (nb s) 0 <> Some r) -> a r = Abort) /\ (forall ts, Forall2 (First r) (nb r) ts -> a r = k r ts).
  Proof.
    intros Hp Ho. destruct (choose (0, Abort) (fun r (p : nat * res A) => gets (fst p) (box r) (maskRecvs (nb r) [] (fun t => Ret (k r t))) (snd p) /\
        ((exists s, In s (nb r) /\ nth_error (nb s) 0 <> Some r) -> snd p = Abort) /\ (forall ts, Forall2 (First r) (nb r) ts -> snd p = k r ts)) n) as [f Hf].
    - intros r L. destruct (gets_masks r (nb r) (box r) [] (Nd r L)) as (c & a & G & A1 & A2); [|exists (c, a); auto].
      intros s I. pose proof (Rg r s L I) as Ls. split; auto. destruct (box_is r s L I) as (i & E & Li & B1 & B2). destruct (Sm s Ls) as [F _]. destruct (ms s) as [|m0 rest] eqn:Em; [cbn in Li; lia|]. exists i, m0, rest. auto 10.
    - exists (fun r => snd (f r)). split; [|intros r L; apply Hf; auto].
      refine (sends_then_gets n _ (fun r => mout [] (combine (nb r) (ms r))) (fun r => maskRecvs (nb r) [] (fun t => Ret (k r t))) (fun r => fst (f r)) _ _ Ho _).
      + intros r L. rewrite Hp by auto. destruct (combine_fst (nb r) (ms r) (Len r L)) as [_ E]. destruct (Sm r L) as [F B]. apply sends_masks; rewrite E; auto.
      + intros r L. apply Hf. auto.
  Qed.
End Wire.
