(* Cutting a convex polygon by a plane: what the parts are. *)
From Verif Require Import Base BaseFacts PLCSpec Plane WithinSpec MeshEditorModel RayModel Hull3Model Csg3Spec Csg3Model Csg3Proofs Csg3Proofs2 Csg3Proofs3 WithinProofs WithinProps.
From Coq Require Import QArith Lqa Lia Permutation Sorted.
Local Open Scope Q_scope.

Lemma seq_nth_err o m k : (k < m)%nat -> nth_error (seq o m) k = Some (o + k)%nat.
Proof. revert o k. induction m as [|m IH]; intros o k H; [lia|]. destruct k; cbn; [f_equal; lia|]. rewrite IH by lia. f_equal. lia. Qed.
Lemma ss_app {A} (R : A -> A -> Prop) l l' : StronglySorted R l -> StronglySorted R l' -> (forall a b, In a l -> In b l' -> R a b) -> StronglySorted R (l ++ l').
Proof.
  intros H H' X. induction l as [|a l IH]; [auto|]. inversion H as [|? ? S F]; subst. cbn. constructor; [apply IH; auto; intros; apply X; auto; right; auto|].
  apply Forall_app. split; auto. apply Forall_forall. intros b Ib. apply X; auto. left; auto.
Qed.
Lemma ss_seq {A} (R : A -> A -> Prop) (g : nat -> A) o m : (forall i j, (i < j)%nat -> R (g i) (g j)) -> StronglySorted R (map g (seq o m)).
Proof.
  intros H. revert o. induction m as [|m IH]; intros o; cbn; constructor; auto. apply Forall_forall. intros b Ib. apply in_map_iff in Ib as (j & <- & Ij). apply in_seq in Ij. apply H. lia.
Qed.
Lemma ss_nth {A} (R : A -> A -> Prop) l i j a b : StronglySorted R l -> (i < j)%nat -> nth_error l i = Some a -> nth_error l j = Some b -> R a b.
Proof.
  intros S. revert i j. induction S as [|x l S IH F]; intros i j L Hi Hj; [destruct i; discriminate|].
  destruct j; [lia|]. destruct i; cbn in *; [|apply (IH i j); auto; lia]. injection Hi as ->. apply nth_error_In in Hj. rewrite Forall_forall in F. auto.
Qed.

Lemma list_eq_nil {A} (l : list A) : {l = []} + {l <> []}. Proof. destruct l; [left; auto|right; discriminate]. Qed.
(* three points of a part, in order, can be moved to three corners in order *)
Definition in_f (N l r p q : nat) : Prop := (p = q /\ p < N /\ (p <= l \/ r <= p) \/ p = l /\ q = l + 1 \/ p = N - 1 /\ q = N /\ r = N)%nat.
Definition in_b (N a p q : nat) : Prop := (p = q /\ a < p < N \/ p = a /\ q = a + 1 \/ p = N - 1 /\ q = N)%nat.
Ltac choose := first [ exfalso; lia | left; lia | right; left; lia | do 2 right; left; lia | do 3 right; left; lia | do 4 right; left; lia | do 5 right; left; lia | do 6 right; left; lia | do 7 right; lia | lia ].
Lemma choose_f N l r p1 q1 p2 q2 p3 q3 : (3 <= N -> l + 2 <= r <= N -> in_f N l r p1 q1 -> in_f N l r p2 q2 -> in_f N l r p3 q3 ->
  q1 <= p2 -> p1 + q1 < p2 + q2 -> q2 <= p3 -> p2 + q2 < p3 + q3 ->
  ((p1 < p2 < p3 /\ p3 < p1 + N) \/ (p1 < p2 < q3 /\ q3 < p1 + N) \/ (p1 < q2 < p3 /\ p3 < p1 + N) \/ (p1 < q2 < q3 /\ q3 < p1 + N) \/
   (q1 < p2 < p3 /\ p3 < q1 + N) \/ (q1 < p2 < q3 /\ q3 < q1 + N) \/ (q1 < q2 < p3 /\ p3 < q1 + N) \/ (q1 < q2 < q3 /\ q3 < q1 + N)))%nat.
Proof.
  unfold in_f. intros H3 Hr H1 H2 H4 R1 R2 R3 R4.
  destruct H1 as [(? & ? & [?|?])|[(? & ?)|(? & ? & ?)]]; destruct H2 as [(? & ? & [?|?])|[(? & ?)|(? & ? & ?)]]; destruct H4 as [(? & ? & [?|?])|[(? & ?)|(? & ? & ?)]]; subst; choose.
Qed.
Lemma choose_b N a p1 q1 p2 q2 p3 q3 : (3 <= N -> a + 2 <= N -> in_b N a p1 q1 -> in_b N a p2 q2 -> in_b N a p3 q3 ->
  q1 <= p2 -> p1 + q1 < p2 + q2 -> q2 <= p3 -> p2 + q2 < p3 + q3 ->
  ((p1 < p2 < p3 /\ p3 < p1 + N) \/ (p1 < p2 < q3 /\ q3 < p1 + N) \/ (p1 < q2 < p3 /\ p3 < p1 + N) \/ (p1 < q2 < q3 /\ q3 < p1 + N) \/
   (q1 < p2 < p3 /\ p3 < q1 + N) \/ (q1 < p2 < q3 /\ q3 < q1 + N) \/ (q1 < q2 < p3 /\ p3 < q1 + N) \/ (q1 < q2 < q3 /\ q3 < q1 + N)))%nat.
Proof.
  unfold in_b. intros H3 Hr H1 H2 H4 R1 R2 R3 R4.
  destruct H1 as [(? & ?)|[(? & ?)|(? & ?)]]; destruct H2 as [(? & ?)|[(? & ?)|(? & ?)]]; destruct H4 as [(? & ?)|[(? & ?)|(? & ?)]]; subst; choose.
Qed.
(* where an edge is cut *)
Lemma cut_between eps l a b : 0 <= eps -> (eps < side l a /\ side l b < - eps) \/ (side l a < - eps /\ eps < side l b) ->
  exists s, 0 < s < 1 /\ cut_edge l a b = lerp3 a b s /\ side l (cut_edge l a b) == 0.
Proof.
  intros E H. unfold cut_edge. set (s := (pw l - dot3 (pnorm l) a) / dot3 (pnorm l) (sub3 b a)). exists s.
  assert (D : dot3 (pnorm l) (sub3 b a) == side l b - side l a) by (unfold side, dot3; destruct a as ((?&?)&?), b as ((?&?)&?); cbn; ring).
  assert (Nm : pw l - dot3 (pnorm l) a == - side l a) by (unfold side; ring).
  assert (NZ : ~ side l b - side l a == 0) by (destruct H; lra).
  assert (Es : s == - side l a / (side l b - side l a)) by (unfold s; rewrite D, Nm; reflexivity).
  assert (Hs : s * (side l b - side l a) == - side l a) by (rewrite Es; field; auto).
  split; [|split; [reflexivity|]].
  - destruct H as [(H & H')|(H & H')].
    + assert (Es' : s == side l a / (side l a - side l b)) by (rewrite Es; field; lra). rewrite Es'. split; [apply Qlt_shift_div_l; lra|apply Qlt_shift_div_r; lra].
    + rewrite Es. split; [apply Qlt_shift_div_l; lra|apply Qlt_shift_div_r; lra].
  - assert (X : side l (lerp3 a b s) == side l a + s * (side l b - side l a)) by (unfold side, dot3, lerp3; cbn [X3 Y3 Z3]; ring). rewrite X, Hs. ring.
Qed.

Section Split.
  Context (eps : Q) (l : plane) (n : p3) (c : Q).
  Hypothesis (E0 : 0 <= eps) (Nn : 0 < dotn n n).
  Context (f0 b0 : p3) (Fr C1 Bk C2 : list p3).
  Let V := (f0 :: Fr) ++ C1 ++ (b0 :: Bk) ++ C2.
  Hypothesis (HF : All eps l FRONT (f0 :: Fr)) (H1 : All eps l COPL C1) (HB : All eps l BACK (b0 :: Bk)) (H2 : All eps l COPL C2).
  Hypothesis (FV : Flat n c V) (TV : Turning n V) (LV : (3 <= length V)%nat).
  Let N := length V.
  Let a1 := S (length Fr).
  Let c1 := length C1.
  Let b1 := S (length Bk).
  Let c2 := length C2.
  Let v := pl V N.
  Let vert (i : nat) : el := (i, i, 1 # 2).
  Lemma N_sum : N = (a1 + c1 + b1 + c2)%nat.
  Proof using All. unfold N, V, a1, c1, b1, c2. rewrite !app_length. cbn [length]. lia. Qed.
  Lemma piece o Y X Z : V = X ++ Y ++ Z -> o = length X -> Y = map v (seq o (length Y)).
  Proof using All.
    intros E ->. apply nth_error_ext. intros k. rewrite nth_error_map.
    destruct (Nat.lt_ge_cases k (length Y)) as [L|L].
    - rewrite seq_nth_err by auto. cbn [option_map].
      assert (LN : (length X + k < N)%nat) by (unfold N; rewrite E, !app_length; lia).
      pose proof (pl_nth n V N eq_refl LV TV _ LN) as Ex. unfold v. rewrite <- Ex, E, nth_error_app2 by lia. replace (length X + k - length X)%nat with k by lia. rewrite nth_error_app1; auto.
    - rewrite (proj2 (nth_error_None _ _)) by auto. symmetry. assert (nth_error (seq (length X) (length Y)) k = None) as -> by (apply nth_error_None; rewrite seq_length; auto). auto.
  Qed.
  Lemma pt_vert i : pt V N (vert i) = v i. Proof using All. unfold pt, vert. cbn [lo_ hi_ fst snd]. rewrite Nat.eqb_refl. reflexivity. Qed.
  Lemma map_vert o m : map (pt V N) (map vert (seq o m)) = map v (seq o m).
  Proof using All. rewrite map_map. apply map_ext. apply pt_vert. Qed.
  Lemma Fr_map : f0 :: Fr = map v (seq 0 a1).
  Proof using All. apply (piece 0 (f0 :: Fr) [] (C1 ++ (b0 :: Bk) ++ C2)); auto. Qed.
  Lemma C1_map : C1 = map v (seq a1 c1).
  Proof using All. apply (piece a1 C1 (f0 :: Fr) ((b0 :: Bk) ++ C2)); auto. Qed.
  Lemma Bk_map : b0 :: Bk = map v (seq (a1 + c1) b1).
  Proof using All. apply (piece (a1 + c1) (b0 :: Bk) ((f0 :: Fr) ++ C1) C2); [unfold V; rewrite <- app_assoc; auto|rewrite app_length; auto]. Qed.
  Lemma C2_map : C2 = map v (seq (a1 + c1 + b1) c2).
  Proof using All. apply (piece (a1 + c1 + b1) C2 ((f0 :: Fr) ++ C1 ++ b0 :: Bk) []); [unfold V; rewrite app_nil_r, <- !app_assoc; auto|rewrite !app_length; unfold a1, c1, b1; cbn [length]; lia]. Qed.
  Lemma last_map o m x u : x :: u = map v (seq o (S m)) -> last u x = v (o + m)%nat.
  Proof using All.
    revert o x u. induction m as [|m IH]; intros o x u E.
    - cbn in E. injection E as -> ->. cbn [last]. rewrite Nat.add_0_r. reflexivity.
    - change (seq o (S (S m))) with (o :: seq (S o) (S m)) in E. cbn [map] in E. injection E as -> E. destruct u as [|y u]; [discriminate|].
      rewrite last_cons. rewrite (IH (S o) y u E). replace (S o + m)%nat with (o + S m)%nat by (clear; lia). reflexivity.
  Qed.
  (* the points on the two cuts, as places *)
  Lemma cut1 : exists es1, P1 l C1 (last Fr f0) b0 = map (pt V N) es1 /\ es1 <> [] /\
    ((C1 = [] /\ exists s, 0 < s < 1 /\ es1 = [(a1 - 1, a1, s)%nat] /\ side l (pt V N (a1 - 1, a1, s)%nat) == 0) \/ (C1 <> [] /\ es1 = map vert (seq a1 c1))).
  Proof using All.
    destruct (list_eq_nil C1) as [EC|EC].
    - assert (LF : last Fr f0 = v (a1 - 1)%nat) by (rewrite (last_map 0 (length Fr) f0 Fr); [unfold a1; replace (0 + length Fr)%nat with (S (length Fr) - 1)%nat by (clear; lia); reflexivity|apply Fr_map]).
      assert (LB : b0 = v a1). { pose proof Bk_map as B. unfold c1 in B. rewrite EC in B. cbn [length] in B. rewrite Nat.add_0_r in B. unfold b1 in B. cbn [seq map] in B. injection B as B _. exact B. }
      destruct (cut_between eps l (last Fr f0) b0 E0) as (s & Hs & Es & S0).
      { left. destruct (class_cases eps l (last Fr f0) E0) as [(X&?)|[(X&?)|(X&?)]]; try (rewrite (HF _ (last_in Fr f0)) in X; discriminate).
        destruct (class_cases eps l b0 E0) as [(Y&?)|[(Y&?)|(Y&?)]]; try (rewrite (HB b0 (or_introl eq_refl)) in Y; discriminate). auto. }
      assert (EP : pt V N (a1 - 1, a1, s)%nat = lerp3 (last Fr f0) b0 s). { unfold pt. cbn [lo_ hi_ fst snd]. rewrite (proj2 (Nat.eqb_neq _ _)) by (unfold a1; lia). rewrite LF, LB at 1. reflexivity. }
      exists [(a1 - 1, a1, s)%nat]. split; [rewrite EC; cbn [map P1]; rewrite EP, <- Es; reflexivity|]. split; [discriminate|]. left. split; [exact EC|]. exists s. split; [exact Hs|]. split; [reflexivity|]. rewrite EP, <- Es. exact S0.
    - exists (map vert (seq a1 c1)). split; [rewrite map_vert; rewrite <- C1_map; unfold P1; destruct C1; [congruence|reflexivity]|]. split; [unfold c1; destruct C1; [congruence|discriminate]|]. right. split; [exact EC|reflexivity].
  Qed.
  Lemma cut2 : exists es2, P1 l C2 (last Bk b0) f0 = map (pt V N) es2 /\ es2 <> [] /\
    ((C2 = [] /\ exists s, 0 < s < 1 /\ es2 = [(N - 1, N, s)%nat] /\ side l (pt V N (N - 1, N, s)%nat) == 0) \/ (C2 <> [] /\ es2 = map vert (seq (a1 + c1 + b1) c2))).
  Proof using All.
    destruct (list_eq_nil C2) as [EC|EC].
    - assert (EN : N = (a1 + c1 + b1)%nat) by (rewrite N_sum; unfold c2; rewrite EC; cbn [length]; lia).
      assert (LB : last Bk b0 = v (N - 1)%nat) by (rewrite (last_map (a1 + c1) (length Bk) b0 Bk); [replace (a1 + c1 + length Bk)%nat with (N - 1)%nat by (rewrite EN; unfold b1; clear; lia); reflexivity|apply Bk_map]).
      assert (LF : f0 = v N). { assert (v N = v 0%nat) as -> by (apply (pl_wrap n V N eq_refl LV TV)). exact (f_equal (hd f0) Fr_map). }
      destruct (cut_between eps l (last Bk b0) f0 E0) as (s & Hs & Es & S0).
      { right. destruct (class_cases eps l (last Bk b0) E0) as [(X&?)|[(X&?)|(X&?)]]; try (rewrite (HB _ (last_in Bk b0)) in X; discriminate).
        destruct (class_cases eps l f0 E0) as [(Y&?)|[(Y&?)|(Y&?)]]; try (rewrite (HF f0 (or_introl eq_refl)) in Y; discriminate). auto. }
      assert (EP : pt V N (N - 1, N, s)%nat = lerp3 (last Bk b0) f0 s). { unfold pt. cbn [lo_ hi_ fst snd]. rewrite (proj2 (Nat.eqb_neq _ _)) by (unfold N; lia). rewrite LB, LF at 1. reflexivity. }
      exists [(N - 1, N, s)%nat]. split; [rewrite EC; cbn [map P1]; rewrite EP, <- Es; reflexivity|]. split; [discriminate|]. left. split; [exact EC|]. exists s. split; [exact Hs|]. split; [reflexivity|]. rewrite EP, <- Es. exact S0.
    - exists (map vert (seq (a1 + c1 + b1) c2)). split; [rewrite map_vert; rewrite <- C2_map; unfold P1; destruct C2; [congruence|reflexivity]|]. split; [unfold c2; destruct C2; [congruence|discriminate]|]. right. split; [exact EC|reflexivity].
  Qed.

  Ltac ar := repeat match goal with x := _ : nat |- _ => clearbody x end; lia.
  Definition Rel (e e' : el) : Prop := (hi_ e <= lo_ e')%nat /\ (lo_ e + hi_ e < lo_ e' + hi_ e')%nat.
  Lemma turn_es es : StronglySorted Rel es -> (forall e, In e es -> okel N e) ->
    (forall e1 e2 e3, In e1 es -> In e2 es -> In e3 es -> Rel e1 e2 -> Rel e2 e3 ->
       exists i1 i2 i3, pick e1 i1 /\ pick e2 i2 /\ pick e3 i3 /\ (i1 < i2 < i3)%nat /\ (i3 < i1 + N)%nat) -> Turning n (map (pt V N) es).
  Proof using All.
    intros S OK X i j k a b d L Hi Hj Hk. rewrite nth_error_map in Hi, Hj, Hk.
    destruct (nth_error es i) as [e1|] eqn:Ei; [|discriminate]. destruct (nth_error es j) as [e2|] eqn:Ej; [|discriminate]. destruct (nth_error es k) as [e3|] eqn:Ek; [|discriminate].
    injection Hi as <-. injection Hj as <-. injection Hk as <-.
    assert (R12 : Rel e1 e2) by (apply (ss_nth Rel es i j); auto; ar). assert (R23 : Rel e2 e3) by (apply (ss_nth Rel es j k); auto; ar).
    pose proof (nth_error_In _ _ Ei) as I1. pose proof (nth_error_In _ _ Ej) as I2. pose proof (nth_error_In _ _ Ek) as I3.
    destruct (X e1 e2 e3 I1 I2 I3 R12 R23) as (i1 & i2 & i3 & Q1 & Q2 & Q3 & L1 & L2).
    apply (el_pos n V N eq_refl LV TV e1 e2 e3 i1 i2 i3); auto; [apply R12|apply R23].
  Qed.
  Definition K1 (e : el) : Prop := (lo_ e = hi_ e /\ a1 <= lo_ e < a1 + c1 \/ lo_ e = a1 - 1 /\ hi_ e = a1 /\ c1 = 0)%nat.
  Definition K2 (e : el) : Prop := (lo_ e = hi_ e /\ a1 + c1 + b1 <= lo_ e < N \/ lo_ e = N - 1 /\ hi_ e = N /\ c2 = 0)%nat.
  Lemma vert_ok i : (i <= N)%nat -> okel N (vert i). Proof using All. intros H. unfold okel, vert. cbn [lo_ hi_ fst snd]. split; [clear -H; ar|lra]. Qed.
  Lemma vert_sorted o m : StronglySorted Rel (map vert (seq o m)).
  Proof using All. apply ss_seq. intros i j H. unfold Rel, vert. cbn. ar. Qed.
  Lemma picks e1 e2 e3 : okel N e1 -> okel N e2 -> okel N e3 ->
    (let p1 := lo_ e1 in let p2 := lo_ e2 in let p3 := lo_ e3 in let q1 := hi_ e1 in let q2 := hi_ e2 in let q3 := hi_ e3 in
     (p1 < p2 < p3 /\ p3 < p1 + N) \/ (p1 < p2 < q3 /\ q3 < p1 + N) \/ (p1 < q2 < p3 /\ p3 < p1 + N) \/ (p1 < q2 < q3 /\ q3 < p1 + N) \/
     (q1 < p2 < p3 /\ p3 < q1 + N) \/ (q1 < p2 < q3 /\ q3 < q1 + N) \/ (q1 < q2 < p3 /\ p3 < q1 + N) \/ (q1 < q2 < q3 /\ q3 < q1 + N))%nat ->
    exists i1 i2 i3, pick e1 i1 /\ pick e2 i2 /\ pick e3 i3 /\ (i1 < i2 < i3)%nat /\ (i3 < i1 + N)%nat.
  Proof using All.
    intros _ _ _ H. cbv zeta in H. unfold pick.
    destruct H as [H|[H|[H|[H|[H|[H|[H|H]]]]]]].
    - exists (lo_ e1), (lo_ e2), (lo_ e3). auto 10.
    - exists (lo_ e1), (lo_ e2), (hi_ e3). auto 10.
    - exists (lo_ e1), (hi_ e2), (lo_ e3). auto 10.
    - exists (lo_ e1), (hi_ e2), (hi_ e3). auto 10.
    - exists (hi_ e1), (lo_ e2), (lo_ e3). auto 10.
    - exists (hi_ e1), (lo_ e2), (hi_ e3). auto 10.
    - exists (hi_ e1), (hi_ e2), (lo_ e3). auto 10.
    - exists (hi_ e1), (hi_ e2), (hi_ e3). auto 10.
  Qed.
  Lemma v_in i : (i <= N)%nat -> In (v i) V.
  Proof using All.
    intros H. destruct (Nat.eq_dec i N) as [->|NE]; [replace (v N) with (v 0%nat) by (symmetry; apply (pl_wrap n V N eq_refl LV TV)); eapply nth_error_In; apply (pl_nth n V N eq_refl LV TV); unfold N; ar|].
    eapply nth_error_In. apply (pl_nth n V N eq_refl LV TV). ar.
  Qed.
  Lemma pt_hull e : okel N e -> Hull (fun p => In p V) (pt V N e).
  Proof using All.
    intros (A & B). unfold pt. destruct (lo_ e =? hi_ e)%nat; [apply hull_in, v_in; ar|]. apply hull_lerp; [apply v_in; ar|apply v_in; ar|lra].
  Qed.
  Lemma pt_flat e : okel N e -> dotn n (pt V N e) == c.
  Proof using All.
    intros H. assert (E : dotn n (pt V N e) == affine (X3 n) (Y3 n) (Z3 n) 0 (pt V N e)) by (unfold dotn, affine; ring). rewrite E.
    apply hull_eq with (S := fun p => In p V); [apply pt_hull; auto|]. intros p Ip. rewrite <- (FV p Ip). unfold dotn, affine. ring.
  Qed.
  Lemma split_turned :
    let f := flat_map (f_part eps l) (ring V) in let b := flat_map (b_part eps l) (ring V) in
    ((3 <= length f)%nat /\ Turning n f /\ forall p, In p f -> Hull (fun p => In p V) p /\ - eps <= side l p) /\
    ((3 <= length b)%nat /\ Turning n b /\ forall p, In p b -> Hull (fun p => In p V) p /\ side l p <= eps) /\
    forall x, Hull (fun p => In p V) x -> Hull (fun p => In p f) x \/ Hull (fun p => In p b) x.
  Proof using All.
    intros f b. destruct (cut_form eps l f0 Fr C1 b0 Bk C2 HF H1 HB H2) as (Ef & Eb). cbv zeta in Ef, Eb. fold V in Ef, Eb. unfold f, b. rewrite Ef, Eb. clear f b Ef Eb.
    destruct cut1 as (es1 & Q1 & NE1 & D1). destruct cut2 as (es2 & Q2 & NE2 & D2).
    pose proof N_sum as SN.
    assert (A1 : (1 <= a1)%nat) by (unfold a1; ar). assert (B1 : (1 <= b1)%nat) by (unfold b1; ar). assert (L3 : (3 <= N)%nat) by exact LV.
    assert (KA : forall e, In e es1 -> okel N e /\ K1 e /\ - eps <= side l (pt V N e) <= eps).
    { destruct D1 as [(EC & s & Hs & -> & S0)|(EC & EE)].
      - intros e [<-|[]]. split; [split; [cbn [lo_ hi_ fst snd]; ar|exact Hs]|]. split; [right; unfold c1; rewrite EC; cbn; auto|lra].
      - intros e I. pose proof I as I'. rewrite EE in I'. apply in_map_iff in I' as (i & <- & Ii). apply in_seq in Ii. split; [apply vert_ok; ar|]. split; [left; unfold vert; cbn [lo_ hi_ fst snd]; ar|].
        assert (IC : In (pt V N (vert i)) C1). { rewrite pt_vert, C1_map. apply in_map, in_seq. ar. }
        destruct (class_cases eps l (pt V N (vert i)) E0) as [(Y&?)|[(Y&?)|(Y&Z)]]; [rewrite (H1 _ IC) in Y; discriminate|rewrite (H1 _ IC) in Y; discriminate|exact Z]. }
    assert (KB : forall e, In e es2 -> okel N e /\ K2 e /\ - eps <= side l (pt V N e) <= eps).
    { destruct D2 as [(EC & s & Hs & -> & S0)|(EC & EE)].
      - intros e [<-|[]]. split; [split; [cbn [lo_ hi_ fst snd]; ar|exact Hs]|]. split; [right; unfold c2; rewrite EC; cbn; auto|lra].
      - intros e I. pose proof I as I'. rewrite EE in I'. apply in_map_iff in I' as (i & <- & Ii). apply in_seq in Ii. split; [apply vert_ok; ar|]. split; [left; unfold vert; cbn [lo_ hi_ fst snd]; ar|].
        assert (IC : In (pt V N (vert i)) C2). { rewrite pt_vert, C2_map. apply in_map, in_seq. ar. }
        destruct (class_cases eps l (pt V N (vert i)) E0) as [(Y&?)|[(Y&?)|(Y&Z)]]; [rewrite (H2 _ IC) in Y; discriminate|rewrite (H2 _ IC) in Y; discriminate|exact Z]. }
    assert (SA : StronglySorted Rel es1) by (destruct D1 as [(_ & s & _ & -> & _)|(_ & ->)]; [repeat constructor|apply vert_sorted]).
    assert (SB : StronglySorted Rel es2) by (destruct D2 as [(_ & s & _ & -> & _)|(_ & ->)]; [repeat constructor|apply vert_sorted]).
    assert (XF : (f0 :: Fr) ++ P1 l C1 (last Fr f0) b0 ++ P1 l C2 (last Bk b0) f0 = map (pt V N) (map vert (seq 0 a1) ++ es1 ++ es2)) by (rewrite !map_app, map_vert, <- Fr_map, Q1, Q2; reflexivity).
    assert (XB : P1 l C1 (last Fr f0) b0 ++ (b0 :: Bk) ++ P1 l C2 (last Bk b0) f0 = map (pt V N) (es1 ++ map vert (seq (a1 + c1) b1) ++ es2)) by (rewrite !map_app, map_vert, <- Bk_map, Q1, Q2; reflexivity).
    assert (IF : forall e, In e (map vert (seq 0 a1) ++ es1 ++ es2) -> okel N e /\ (lo_ e = hi_ e /\ lo_ e < a1 \/ K1 e \/ K2 e)%nat /\ - eps <= side l (pt V N e)).
    { intros e I. apply in_app_or in I as [I|I].
      - apply in_map_iff in I as (i & <- & Ii). apply in_seq in Ii. split; [apply vert_ok; ar|]. split; [left; unfold vert; cbn [lo_ hi_ fst snd]; ar|].
        assert (IC : In (pt V N (vert i)) (f0 :: Fr)). { rewrite pt_vert, Fr_map. apply in_map, in_seq. ar. }
        destruct (class_cases eps l (pt V N (vert i)) E0) as [(Y&?)|[(Y&?)|(Y&Z)]]; [rewrite (HF _ IC) in Y; discriminate|lra|lra].
      - apply in_app_or in I as [I|I]; [destruct (KA e I) as (? & ? & ?)|destruct (KB e I) as (? & ? & ?)]; split; auto; split; auto; lra. }
    assert (IB : forall e, In e (es1 ++ map vert (seq (a1 + c1) b1) ++ es2) -> okel N e /\ (lo_ e = hi_ e /\ a1 + c1 <= lo_ e < a1 + c1 + b1 \/ K1 e \/ K2 e)%nat /\ side l (pt V N e) <= eps).
    { intros e I. apply in_app_or in I as [I|I]; [destruct (KA e I) as (? & ? & ?); split; auto; split; auto; lra|]. apply in_app_or in I as [I|I].
      - apply in_map_iff in I as (i & <- & Ii). apply in_seq in Ii. split; [apply vert_ok; ar|]. split; [left; unfold vert; cbn [lo_ hi_ fst snd]; ar|].
        assert (IC : In (pt V N (vert i)) (b0 :: Bk)). { rewrite pt_vert, Bk_map. apply in_map, in_seq. ar. }
        destruct (class_cases eps l (pt V N (vert i)) E0) as [(Y&?)|[(Y&?)|(Y&Z)]]; [lra|rewrite (HB _ IC) in Y; discriminate|lra].
      - destruct (KB e I) as (? & ? & ?); split; auto; split; auto; lra. }
    assert (L1 : (1 <= length es1)%nat) by (destruct es1; [congruence|cbn; ar]). assert (L2 : (1 <= length es2)%nat) by (destruct es2; [congruence|cbn; ar]).
    rewrite XF, XB. split; [|split].
    - split; [rewrite map_length, !app_length, map_length, seq_length; ar|]. split.
      + apply turn_es.
        * apply ss_app; [apply vert_sorted| |].
          -- apply ss_app; auto. intros x y Ix Iy. destruct (KA x Ix) as ((O1 & _) & X1 & _). destruct (KB y Iy) as ((O2 & _) & X2 & _). unfold Rel, K1, K2 in *. clear -O1 X1 O2 X2 SN A1 B1 L3. ar.
          -- intros x y Ix Iy. apply in_map_iff in Ix as (i & <- & Ii). apply in_seq in Ii. apply in_app_or in Iy as [Iy|Iy].
             ++ destruct (KA y Iy) as ((O2 & _) & X2 & _). unfold Rel, K1 in *. unfold vert in *; cbn [lo_ hi_ fst snd] in *. clear -O2 X2 SN A1 B1 L3 Ii. ar.
             ++ destruct (KB y Iy) as ((O2 & _) & X2 & _). unfold Rel, K2 in *. unfold vert in *; cbn [lo_ hi_ fst snd] in *. clear -O2 X2 SN A1 B1 L3 Ii. ar.
        * intros e I. apply IF; auto.
        * intros e1 e2 e3 I1 I2 I3 R12 R23. destruct (IF _ I1) as (O1 & X1 & _). destruct (IF _ I2) as (O2 & X2 & _). destruct (IF _ I3) as (O3 & X3' & _).
          apply picks; auto. cbv zeta. destruct R12, R23. unfold K1, K2 in *.
          apply (choose_f N (a1 + c1 - 1) (a1 + c1 + b1)); auto; unfold in_f; [clear -SN A1 B1; ar|clear -X1 SN A1 B1; ar|clear -X2 SN A1 B1; ar|clear -X3' SN A1 B1; ar].
      + intros p Ip. apply in_map_iff in Ip as (e & <- & Ie). destruct (IF e Ie) as (O & _ & S). split; [apply pt_hull; auto|exact S].
    - split; [rewrite map_length, !app_length, map_length, seq_length; ar|]. split.
      + apply turn_es.
        * apply ss_app; auto; [apply ss_app; auto; [apply vert_sorted|]|].
          -- intros x y Ix Iy. apply in_map_iff in Ix as (i & <- & Ii). apply in_seq in Ii.
             destruct (KB y Iy) as ((O2 & _) & X2 & _). unfold Rel, K2 in *. unfold vert in *; cbn [lo_ hi_ fst snd] in *. clear -O2 X2 SN A1 B1 L3 Ii. ar.
          -- intros x y Ix Iy. destruct (KA x Ix) as ((O1 & _) & X1 & _). apply in_app_or in Iy as [Iy|Iy].
             ++ apply in_map_iff in Iy as (i & <- & Ii). apply in_seq in Ii. unfold Rel, K1 in *. unfold vert in *; cbn [lo_ hi_ fst snd] in *. clear -O1 X1 SN A1 B1 L3 Ii. ar.
             ++ destruct (KB y Iy) as ((O2 & _) & X2 & _). unfold Rel, K1, K2 in *. clear -O1 X1 O2 X2 SN A1 B1 L3. ar.
        * intros e I. apply IB; auto.
        * intros e1 e2 e3 I1 I2 I3 R12 R23. destruct (IB _ I1) as (O1 & X1 & _). destruct (IB _ I2) as (O2 & X2 & _). destruct (IB _ I3) as (O3 & X3' & _).
          apply picks; auto. cbv zeta. destruct R12, R23. unfold K1, K2 in *.
          apply (choose_b N (a1 - 1)); auto; unfold in_b; [clear -SN A1 B1; ar|clear -X1 SN A1 B1; ar|clear -X2 SN A1 B1; ar|clear -X3' SN A1 B1; ar].
      + intros p Ip. apply in_map_iff in Ip as (e & <- & Ie). destruct (IB e Ie) as (O & _ & S). split; [apply pt_hull; auto|exact S].
    - destruct es1 as [|e1 es1']; [congruence|]. destruct es2 as [|e2 es2']; [congruence|]. set (es1 := e1 :: es1') in *. set (es2 := e2 :: es2') in *.
      destruct (KA e1 (or_introl eq_refl)) as (O1 & X1 & _). destruct (KB e2 (or_introl eq_refl)) as (O2 & X2 & _).
      set (PP := fun p => In p (map (pt V N) es1) \/ In p (map (pt V N) es2)).
      assert (M : forall f b, In f (f0 :: Fr) -> In b (b0 :: Bk) -> exists k, 0 < k < 1 /\ Mix PP 1 (fun i => (1 - k) * C i f + k * C i b)).
      { intros f b If Ib. rewrite Fr_map in If. rewrite Bk_map in Ib. apply in_map_iff in If as (i & <- & Ii). apply in_map_iff in Ib as (j & <- & Ij). apply in_seq in Ii, Ij.
        rewrite <- (pt_vert i), <- (pt_vert j). set (ei := vert i). set (ej := vert j).
        assert (Oi : okel N ei) by (apply vert_ok; ar). assert (Oj : okel N ej) by (apply vert_ok; ar).
        assert (T1 : 0 < turn n (pt V N e1) (pt V N ej) (pt V N e2)).
        { assert (R12 : Rel e1 ej) by (destruct O1; unfold Rel, K1 in *; unfold ej, vert; cbn [lo_ hi_ fst snd]; clear -X1 SN A1 B1 L3 Ij; ar).
          assert (R23 : Rel ej e2) by (destruct O2; unfold Rel, K2 in *; unfold ej, vert; cbn [lo_ hi_ fst snd]; clear -X2 SN A1 B1 L3 Ij; ar).
          destruct (picks e1 ej e2 O1 Oj O2) as (i1 & i2 & i3 & G1 & G2 & G3 & G4 & G5).
          - cbv zeta. unfold K1, K2 in *. destruct R12, R23. apply (choose_b N (a1 - 1)); auto; unfold in_b; [clear -SN A1 B1; ar|clear -X1 SN A1 B1; ar| |clear -X2 SN A1 B1; ar].
            unfold ej, vert; cbn [lo_ hi_ fst snd]. clear -SN A1 B1 Ij. ar.
          - apply (el_pos n V N eq_refl LV TV e1 ej e2 i1 i2 i3); auto; [apply R12|apply R23]. }
        assert (T2 : 0 < turn n (pt V N ei) (pt V N e1) (pt V N e2)).
        { assert (R12 : Rel ei e1) by (destruct O1; unfold Rel, K1 in *; unfold ei, vert; cbn [lo_ hi_ fst snd]; clear -X1 SN A1 B1 L3 Ii; ar).
          assert (R23 : Rel e1 e2) by (destruct O2; unfold Rel, K1, K2 in *; clear -X1 X2 SN A1 B1 L3 Ij; ar).
          destruct (picks ei e1 e2 Oi O1 O2) as (i1 & i2 & i3 & G1 & G2 & G3 & G4 & G5).
          - cbv zeta. unfold K1, K2 in *. destruct R12, R23. apply (choose_f N (a1 + c1 - 1) (a1 + c1 + b1)); auto; unfold in_f; [clear -SN A1 B1; ar| |clear -X1 SN A1 B1; ar|clear -X2 SN A1 B1; ar].
            unfold ei, vert; cbn [lo_ hi_ fst snd]. clear -SN A1 B1 Ii. ar.
          - apply (el_pos n V N eq_refl LV TV ei e1 e2 i1 i2 i3); auto; [apply R12|apply R23]. }
        assert (T3 : 0 <= turn n (pt V N ei) (pt V N ej) (pt V N e2)).
        { apply (el_weak n V N eq_refl LV TV); auto; unfold K2 in *; unfold ei, ej, vert; cbn [lo_ hi_ fst snd]; clear -X2 SN A1 B1 L3 Ii Ij; ar. }
        assert (T4 : 0 <= turn n (pt V N ei) (pt V N e1) (pt V N ej)).
        { apply (el_weak n V N eq_refl LV TV); auto; unfold K1 in *; unfold ei, ej, vert; cbn [lo_ hi_ fst snd]; clear -X1 SN A1 B1 L3 Ii Ij; ar. }
        pose proof (turn_four n (pt V N ei) (pt V N e1) (pt V N ej) (pt V N e2)) as T5.
        assert (FF : forall q, turn n (pt V N e1) (pt V N ej) (pt V N e2) * C q (pt V N ei) + turn n (pt V N ei) (pt V N e1) (pt V N e2) * C q (pt V N ej) ==
                    turn n (pt V N ei) (pt V N ej) (pt V N e2) * C q (pt V N e1) + turn n (pt V N ei) (pt V N e1) (pt V N ej) * C q (pt V N e2)).
        { intros q. apply flat_four; auto; rewrite !pt_flat; auto; reflexivity. }
        set (u := turn n (pt V N e1) (pt V N ej) (pt V N e2)) in *. set (w := turn n (pt V N ei) (pt V N e1) (pt V N e2)) in *.
        set (y := turn n (pt V N ei) (pt V N ej) (pt V N e2)) in *. set (z := turn n (pt V N ei) (pt V N e1) (pt V N ej)) in *.
        assert (Dp : 0 < u + w) by lra. assert (Dn : ~ u + w == 0) by lra.
        exists (w / (u + w)). split; [split; [apply Qlt_shift_div_l; lra|apply Qlt_shift_div_r; lra]|].
        assert (I1 : PP (pt V N e1)) by (left; left; reflexivity). assert (I2 : PP (pt V N e2)) by (right; left; reflexivity).
        apply (mix_add PP (y / (u + w)) (fun q => y / (u + w) * C q (pt V N e1)) (z / (u + w)) (fun q => z / (u + w) * C q (pt V N e2))).
        - apply (mix_one PP (y / (u + w)) (pt V N e1)); auto; [apply Qle_shift_div_l; lra|reflexivity|intros; reflexivity].
        - apply (mix_one PP (z / (u + w)) (pt V N e2)); auto; [apply Qle_shift_div_l; lra|reflexivity|intros; reflexivity].
        - assert (YZ : y + z == u + w) by lra. assert (G : y / (u + w) + z / (u + w) == (y + z) / (u + w)) by (field; auto). rewrite G, YZ. field. auto.
        - intros q. specialize (FF q).
          assert (G1 : (1 - w / (u + w)) * C q (pt V N ei) + w / (u + w) * C q (pt V N ej) == (u * C q (pt V N ei) + w * C q (pt V N ej)) / (u + w)) by (field; auto).
          rewrite G1, FF. field. auto. }
      intros x Hx.
      assert (Hx' : Hull (fun p => In p (f0 :: Fr) \/ In p (b0 :: Bk) \/ PP p) x).
      { apply hull_mono with (S := fun p => In p V); auto. intros p Ip. unfold V in Ip. apply in_app_or in Ip as [Ip|Ip]; auto. apply in_app_or in Ip as [Ip|Ip].
        - right; right. left. destruct D1 as [(EC & _)|(EC & EE)]; [rewrite EC in Ip; contradiction|]. rewrite EE, map_vert, <- C1_map. auto.
        - apply in_app_or in Ip as [Ip|Ip]; auto. right; right. right. destruct D2 as [(EC & _)|(EC & EE)]; [rewrite EC in Ip; contradiction|]. rewrite EE, map_vert, <- C2_map. auto. }
      destruct (chord (fun p => In p (f0 :: Fr)) (fun p => In p (b0 :: Bk)) PP M x Hx') as [R|R]; [left|right]; (eapply hull_mono; [|exact R]); intros p Ip; rewrite !map_app, map_vert.
      + rewrite <- Fr_map. destruct Ip as [Ip|[Ip|Ip]]; apply in_or_app; [left; auto|right; apply in_or_app; left; auto|right; apply in_or_app; right; auto].
      + rewrite <- Bk_map. destruct Ip as [Ip|[Ip|Ip]]; apply in_or_app; [right; apply in_or_app; left; auto|left; auto|right; apply in_or_app; right; auto].
  Qed.
End Split.

(* a polygon across the plane *)
Lemma split_parts eps l n c V : 0 <= eps -> 0 < dotn n n -> Flat n c V -> Turning n V -> (3 <= length V)%nat ->
  (exists x, In x V /\ classify eps l x = FRONT) -> (exists x, In x V /\ classify eps l x = BACK) ->
  let f := flat_map (f_part eps l) (ring V) in let b := flat_map (b_part eps l) (ring V) in
  ((3 <= length f)%nat /\ Turning n f /\ forall p, In p f -> Hull (fun p => In p V) p /\ - eps <= side l p) /\
  ((3 <= length b)%nat /\ Turning n b /\ forall p, In p b -> Hull (fun p => In p V) p /\ side l p <= eps) /\
  forall x, Hull (fun p => In p V) x -> Hull (fun p => In p f) x \/ Hull (fun p => In p b) x.
Proof.
  intros E0 Nn F T L HF HB.
  destruct (shape eps l n c E0 Nn V F T HF HB) as (A & B & f0 & Fr & C1 & b0 & Bk & C2 & EV & EB & KF & K1' & KB & K2').
  assert (PV : Permutation V (B ++ A)) by (rewrite EV; apply Permutation_app_comm).
  assert (IV : forall p, In p V <-> In p (B ++ A)) by (intros p; split; apply Permutation_in; [|apply Permutation_sym]; auto).
  assert (F' : Flat n c (B ++ A)) by (intros q Iq; apply F, IV; auto). assert (T' : Turning n (B ++ A)) by (apply turning_rotate; rewrite <- EV; auto).
  assert (L' : (3 <= length (B ++ A))%nat) by (rewrite <- (Permutation_length PV); auto).
  pose proof EB as EB'. rewrite EB in F', T', L'.
  destruct (split_turned eps l n c E0 Nn f0 b0 Fr C1 Bk C2 KF K1' KB K2' F' T' L') as ((X1 & X2 & X3') & (Y1 & Y2 & Y3') & Z). cbv zeta in *.
  rewrite <- EB in X1, X2, X3', Y1, Y2, Y3', Z.
  assert (PF : forall g : p3 * p3 -> list p3, Permutation (flat_map g (ring (B ++ A))) (flat_map g (ring V))) by (intros g; rewrite EV; apply Permutation_flat_map, ring_rotate).
  assert (IFm : forall (g : p3 * p3 -> list p3) p, In p (flat_map g (ring V)) <-> In p (flat_map g (ring (B ++ A)))) by (intros g p; split; apply Permutation_in; [apply Permutation_sym|]; auto).
  assert (TF : forall g, Turning n (flat_map g (ring (B ++ A))) -> Turning n (flat_map g (ring V))).
  { intros g H. rewrite EV. apply (ring_turned g (Turning n)); auto. intros x y. apply turning_rotate. }
  assert (HH : forall x, Hull (fun p => In p (B ++ A)) x <-> Hull (fun p => In p V) x) by (intros x; split; apply hull_mono; intros p; apply IV).
  split; [|split].
  - split; [rewrite <- (Permutation_length (PF _)); auto|]. split; [apply TF; auto|]. intros p Ip. apply IFm in Ip. destruct (X3' p Ip) as (U & W). split; [apply HH; auto|auto].
  - split; [rewrite <- (Permutation_length (PF _)); auto|]. split; [apply TF; auto|]. intros p Ip. apply IFm in Ip. destruct (Y3' p Ip) as (U & W). split; [apply HH; auto|auto].
  - intros x Hx. apply HH in Hx. destruct (Z x Hx) as [U|U]; [left|right]; (eapply hull_mono; [|exact U]); intros p Ip; apply IFm; auto.
Qed.
