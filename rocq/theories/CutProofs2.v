(* Lemmas for CutProps.v: the searches and the cut. *)
From Verif Require Import Base BaseFacts Plane PLCSpec MeshEditorModel CutModel CutSpec CutProofs.
From Coq Require Import QArith Lqa.
Local Open Scope nat_scope.

Lemma qlt_t a b : Qlt_bool a b = true <-> (a < b)%Q.
Proof. unfold Qlt_bool. rewrite negb_true_iff. split; intros H; [apply Qnot_le_lt; intros K; apply Qle_bool_iff in K; congruence|]. apply not_true_iff_false. intros K. apply Qle_bool_iff in K. lra. Qed.
Lemma qlt_f a b : Qlt_bool a b = false <-> (b <= a)%Q.
Proof. unfold Qlt_bool. rewrite negb_false_iff. apply Qle_bool_iff. Qed.
Lemma tol_pos : (0 < cut_tol)%Q.
Proof. reflexivity. Qed.

(* links one way along a list *)
Fixpoint Way (link : nat -> option nat) (l : list nat) : Prop :=
  match l with a :: t => match t with b :: _ => link a = Some b /\ Way link t | [] => True end | [] => True end.
Lemma path_way nx pv l : Path nx pv l -> Way nx l.
Proof. induction l as [|a [|b l] IH]; auto. intros (A & B & C). split; auto. Qed.
Lemma way_app link l1 a l2 : Way link (l1 ++ [a]) -> Way link (a :: l2) -> Way link (l1 ++ a :: l2).
Proof. induction l1 as [|x l1 IH]; auto. destruct l1 as [|y l1]; cbn [app] in *; [intros [H _] K; split; auto|]. intros [H H'] K. split; auto. Qed.
Lemma path_back nx pv l : Path nx pv l -> Way pv (rev l).
Proof.
  induction l as [|a [|b l] IH]; [auto|cbn; auto|]. intros (A & B & C). specialize (IH C). cbn [rev] in *. rewrite <- app_assoc. apply way_app; auto. split; auto. exact I.
Qed.
Lemma way_tl link a l : Way link (a :: l) -> Way link l.
Proof. destruct l; [auto|intros [_ H]; auto]. Qed.
Lemma way_split link l1 a l2 : Way link (l1 ++ a :: l2) -> Way link (l1 ++ [a]) /\ Way link (a :: l2).
Proof. induction l1 as [|x l1 IH]; [cbn; auto|]. destruct l1 as [|y l1]; cbn [app] in *; [intros [H K]; split; [split; auto; exact I|auto]|]. intros [H K]. destruct (IH K) as [A B]. split; auto. split; auto. Qed.

Section S.
  Variable (x y rsq : Q).
  Notation u := (vpos x y rsq).
  (* the corner at i exists and is at v *)
  Definition At (s : vcell) (i : nat) (v : corner) := vx s i = Some v.
  Lemma pos_at s i v : At s i v -> vpos_at x y rsq s i = Ok (u v).
  Proof. intros H. unfold vpos_at, peek. rewrite H. auto. Qed.

  (* sweep passes over the corners os, which are outside, and gets to j, which is not *)
  Lemma sweep_ok s link stop os vs fuel : forall stk l i j w,
    Forall2 (At s) os vs -> At s j w -> Forall (fun v => cut_tol < u v)%Q vs -> (u w <= cut_tol)%Q -> Way link (os ++ [j]) ->
    length os <= fuel -> ~ In stop os -> i = hd j os ->
    exists b, sweep x y rsq s link stop fuel stk l i (u (hd w vs)) = Ok (stk ++ os, last (map u vs) l, j, u w, b) /\ (stop <> j -> b = false).
  Proof.
    revert vs fuel. induction os as [|o os IH]; intros vs fuel stk l i j w F J O W P L N E.
    - inversion F; subst. cbn [hd map last]. exists false. split; auto. rewrite app_nil_r. destruct fuel; cbn [sweep]; rewrite (proj2 (qlt_f _ _) W); auto.
    - inversion F as [|? v ? vs' Ao F']; subst. inversion O as [|? ? Ov O']; subst. cbn [hd]. destruct fuel as [|fuel]; [cbn in L; lia|]. cbn [sweep]. rewrite (proj2 (qlt_t _ _) Ov).
      assert (Eh : link o = Some (hd j os)) by (destruct os; destruct P as [P _]; exact P). unfold peek at 1. rewrite Eh. cbn [bind].
      assert (Ah : At s (hd j os) (hd w vs')) by (inversion F'; subst; auto). rewrite (pos_at _ _ _ Ah). cbn [bind].
      destruct (hd j os =? stop) eqn:Es.
      + apply Nat.eqb_eq in Es. destruct os as [|o' os]; [|exfalso; apply N; right; left; auto]. inversion F'; subst. cbn [hd map last] in *. exists true. split; auto. intros K. congruence.
      + destruct (IH vs' fuel (stk ++ [o]) (u v) (hd j os) j w F' J O' W (way_tl _ _ _ P) ltac:(cbn in L; lia) ltac:(intros K; apply N; right; auto) eq_refl) as (b & E & Hb).
        exists b. split; auto. rewrite E, <- app_assoc. cbn [app map]. f_equal. f_equal. f_equal. f_equal. f_equal. destruct vs' as [|v' vs']; [auto|]. clear. cbn [map]. generalize (u v'). induction (map u vs') as [|z l0 IH]; auto. intros t. change (last (t :: z :: l0) (u v)) with (last (z :: l0) (u v)). change (last (t :: z :: l0) l) with (last (z :: l0) l). apply IH.
  Qed.
  (* all corners outside: the sweep comes back *)
  Lemma sweep_gone s link stop os vs fuel : forall stk l i w,
    Forall2 (At s) os vs -> At s stop w -> Forall (fun v => cut_tol < u v)%Q vs -> Way link (os ++ [stop]) ->
    length os <= fuel -> os <> [] -> ~ In stop os -> i = hd stop os ->
    exists a b c d, sweep x y rsq s link stop fuel stk l i (u (hd w vs)) = Ok (a, b, c, d, true).
  Proof.
    revert vs fuel. induction os as [|o os IH]; intros vs fuel stk l i w F J O P L NE N E; [congruence|].
    inversion F as [|? v ? vs' Ao F']; subst. inversion O as [|? ? Ov O']; subst. cbn [hd]. destruct fuel as [|fuel]; [cbn in L; lia|]. cbn [sweep]. rewrite (proj2 (qlt_t _ _) Ov).
    assert (Eh : link o = Some (hd stop os)) by (destruct os; destruct P as [P _]; exact P). unfold peek at 1. rewrite Eh. cbn [bind].
    assert (Ah : At s (hd stop os) (hd w vs')) by (inversion F'; subst; auto). rewrite (pos_at _ _ _ Ah). cbn [bind].
    destruct (hd stop os =? stop) eqn:Es; [eauto 6|].
    destruct os as [|o' os]; [cbn in Es; rewrite Nat.eqb_refl in Es; discriminate|]. apply IH; auto; [exact (way_tl _ _ _ P)|cbn in *; lia|discriminate|intros K; apply N; right; auto].
  Qed.

  (* seek: the first corner outside along the way, none if there is none before the stop *)
  Lemma seek_ok s link stop is vs fuel : forall i w, Forall2 (At s) is vs -> At s stop w -> Way link (is ++ [stop]) -> length is <= fuel -> is <> [] -> ~ In stop is -> i = hd stop is ->
    (exists i1 i2 v, is = i1 ++ i2 /\ i2 <> [] /\ At s (hd stop i2) v /\ (cut_tol <= u v)%Q /\ seek x y rsq s link stop fuel i (u (hd w vs)) = Ok (Some (hd stop i2, u v))) \/
    (Forall (fun v => u v < cut_tol)%Q vs /\ seek x y rsq s link stop fuel i (u (hd w vs)) = Ok None).
  Proof.
    revert vs fuel. induction is as [|o is IH]; intros vs fuel i w F J P L NE N E; [congruence|].
    inversion F as [|? v ? vs' Ao F']; subst. cbn [hd]. destruct (Qlt_le_dec (u v) cut_tol) as [C|C].
    - destruct fuel as [|fuel]; [cbn in L; lia|]. cbn [seek]. rewrite (proj2 (qlt_t _ _) C).
      assert (Eh : link o = Some (hd stop is)) by (destruct is; destruct P as [P _]; exact P). unfold peek at 1 2. rewrite Eh. cbn [bind].
      assert (Ah : At s (hd stop is) (hd w vs')) by (inversion F'; subst; auto). rewrite (pos_at _ _ _ Ah). cbn [bind].
      destruct is as [|o' is].
      + inversion F'; subst. cbn [hd]. rewrite Nat.eqb_refl. right. split; auto.
      + cbn [hd]. assert (Es : (o' =? stop) = false) by (apply Nat.eqb_neq; intros ->; apply N; right; left; auto). rewrite Es.
        destruct (IH vs' fuel o' w F' J (way_tl _ _ _ P) ltac:(cbn in *; lia) ltac:(discriminate) ltac:(intros K; apply N; right; auto) eq_refl) as [(i1 & i2 & v' & A & B & D & G & H)|[A B]].
        * left. exists (o :: i1), i2, v'. rewrite A. repeat split; auto.
        * right. split; auto.
    - left. exists [], (o :: is), v. repeat split; auto. destruct fuel; cbn [seek]; rewrite (proj2 (qlt_f _ _) C); auto.
  Qed.

  (* what is left of the corners k when the corners o, the first after the last of k, are cut off *)
  Definition crossing (a b : corner) : p2 := cross_at (fst a) (fst b) (u a) (u b).
  Definition left_over (p_id : Z) (o1 om k1 kn : corner) (k : list corner) : list corner :=
    k ++ (crossing kn o1, p_id) :: (if Qlt_bool (- cut_tol) (u k1) then [] else [(crossing k1 om, snd om)]).
End S.
