(* The loop over the cells of the library. *)
From Verif Require Import Base BaseFacts PLCSpec MeshModel MeshSpec Plane HullModel VoroModel VoroSpec VoroProofs VoroProofs2.
From Coq Require Import Lia QArith.
Local Open Scope nat_scope.

Notation vside := (vcell * list nat)%type.
Definition sides_of (cs : list vcell) : list vside := flat_map (fun c => map (pair c) (vc_faces c)) cs.
Definition Rep (dx : Q) (ns : list ipt) (s : vside) (it : item) : Prop :=
  fst it = vc_pid (fst s) /\ at_ids ns (snd it) (once [] (corners dx (fst s) (snd s))).
Record Linv (dx : Q) (n : nat) (ns : list ipt) (m : vmesh) (done : list item) (ss : list vside) : Prop := {
  li_inv : Inv n done m;
  li_rep : Forall2 (Rep dx ns) ss done;
  li_ns : NoDup ns;
  li_nodup : forall f, NoDup (owners done f);
  li_two : forall f, length (owners done f) <= 2;
  li_pid : forall it, In it done -> fst it < n }.

Lemma Forall2_in_r {A B} (R : A -> B -> Prop) l l' : Forall2 R l l' -> forall b, In b l' -> exists a, In a l /\ R a b.
Proof. intros F. induction F as [|x y l l' H F IH]; intros b I; [destruct I|]. destruct I as [<- | I]; [exists x; cbn; auto|]. destruct (IH b I) as (a & Ia & C). exists a. cbn. auto. Qed.
Lemma in_sides cs s : In s (sides_of cs) -> exists a b, side cs a b (fst s) (snd s).
Proof.
  unfold sides_of. intros H. apply in_flat_map in H as (c & C & H). apply in_map_iff in H as (f & <- & F).
  apply In_nth_error in C as (a & A). apply In_nth_error in F as (b & B). exists a, b. split; assumption.
Qed.
Lemma same_points ns a b ps qs : at_ids ns a ps -> at_ids ns b qs -> same_set a b = true -> sameset ps qs.
Proof.
  intros A B E. apply same_set_iff in E. intros x. split; intros H.
  - destruct (at_out _ _ _ _ A H) as (i & I & N). apply E in I. destruct (at_in _ _ _ _ B I) as (y & Y & Z). congruence.
  - destruct (at_out _ _ _ _ B H) as (i & I & N). apply E in I. destruct (at_in _ _ _ _ A I) as (y & Y & Z). congruence.
Qed.
Lemma once_same l : sameset (once [] l) l.
Proof. intros x. rewrite once_in. cbn. tauto. Qed.
Lemma rep_same dx ns s t a b : Rep dx ns s a -> Rep dx ns t b -> same_set (snd a) (snd b) = true ->
  sameset (corners dx (fst s) (snd s)) (corners dx (fst t) (snd t)).
Proof.
  intros [_ A] [_ B] E x. rewrite <- (once_same (corners dx (fst s) (snd s)) x), <- (once_same (corners dx (fst t) (snd t)) x).
  apply (same_points _ _ _ _ _ A B E).
Qed.

Section Loop.
  Variables (dx : Q) (n : nat) (cs : list vcell).
  Hypothesis (RD : Readable dx n cs).

  Lemma face_step pc c post pf f fpost ns m done ids : cs = pc ++ c :: post -> vc_faces c = pf ++ f :: fpost ->
    Linv dx n ns m done (sides_of pc ++ map (pair c) pf) -> Forall2 (fun v i => nth_error ns i = Some v) (spots dx c) ids ->
    exists m' it, (do fn <- face_nodes ids f; insertFaceInfo (vc_pid c) m fn) = Ok m' /\
      Linv dx n ns m' (done ++ [it]) (sides_of pc ++ map (pair c) (pf ++ [f])).
  Proof using All.
    intros EC EF L F.
    assert (IC : In c cs) by (rewrite EC; apply in_or_app; right; left; reflexivity).
    assert (IFc : In f (vc_faces c)) by (rewrite EF; apply in_or_app; right; left; reflexivity).
    destruct (rd_face _ _ _ RD c f IC IFc) as [K L3].
    destruct (face_nodes_ok ns (spots dx c) ids f (li_ns _ _ _ _ _ _ L) F) as (fn & E & A).
    { unfold spots. rewrite map_length. exact K. }
    { exact L3. }
    rewrite E. cbn [bind]. set (i := vc_pid c).
    assert (R : Rep dx ns (c, f) (i, fn)) by (split; [reflexivity | exact A]).
    assert (NI : ~ In i (owners done fn)).
    { intros I. destruct (owners_ex _ _ _ I) as (g & G & S). destruct (Forall2_in_r _ _ _ (li_rep _ _ _ _ _ _ L) _ G) as ([d h] & D & R').
      pose proof (rep_same _ _ _ _ _ _ R R' S) as SC. cbn [fst snd] in SC. destruct R' as [P _]. cbn [fst snd] in P.
      apply in_app_or in D as [D | D].
      - unfold sides_of in D. apply in_flat_map in D as (d' & D' & D). apply in_map_iff in D as (h' & EE & _). injection EE as -> ->.
        pose proof (rd_pids _ _ _ RD) as ND. rewrite EC, map_app in ND. cbn [map] in ND. apply NoDup_remove_2 in ND. apply ND.
        apply in_or_app. left. unfold i in P. rewrite P. apply in_map. exact D'.
      - apply in_map_iff in D as (h' & EE & D). injection EE as <- ->.
        apply In_nth_error in D as (b & B).
        assert (B1 : nth_error (vc_faces c) b = Some h) by (rewrite EF, nth_error_app1; [exact B | apply nth_error_lt with h; exact B]).
        assert (B2 : nth_error (vc_faces c) (length pf) = Some f) by (rewrite EF, nth_error_app2, Nat.sub_diag by lia; reflexivity).
        assert (C0 : nth_error cs (length pc) = Some c) by (rewrite EC, nth_error_app2, Nat.sub_diag by lia; reflexivity).
        pose proof (rd_own _ _ _ RD (length pc) (length pf) b c f h (conj C0 B2) (conj C0 B1) SC) as EB.
        pose proof (nth_error_lt _ _ _ B). lia. }
    assert (NDn : forall g, NoDup (owners (done ++ [(i, fn)]) g)).
    { intros g. rewrite owners_app, owners_one. cbn [fst snd]. destruct (same_set g fn) eqn:S; [|rewrite app_nil_r; apply (li_nodup _ _ _ _ _ _ L)].
      apply nodup_snoc; [apply (li_nodup _ _ _ _ _ _ L)|]. rewrite (owners_same _ _ _ S). exact NI. }
    assert (F2 : Forall2 (Rep dx ns) (sides_of pc ++ map (pair c) (pf ++ [f])) (done ++ [(i, fn)])).
    { rewrite map_app, app_assoc. apply Forall2_app; [apply (li_rep _ _ _ _ _ _ L) | constructor; [exact R | constructor]]. }
    assert (T : forall g, length (owners (done ++ [(i, fn)]) g) <= 2).
    { intros g. pose proof (NDn g) as ND. destruct (owners (done ++ [(i, fn)]) g) as [|x [|y [|z t]]] eqn:O; cbn; try lia. exfalso.
      destruct (owners_ex (done ++ [(i, fn)]) g x) as (gx & X1 & X2); [rewrite O; cbn; auto|].
      destruct (owners_ex (done ++ [(i, fn)]) g y) as (gy & Y1 & Y2); [rewrite O; cbn; auto|].
      destruct (owners_ex (done ++ [(i, fn)]) g z) as (gz & Z1 & Z2); [rewrite O; cbn; auto|].
      destruct (Forall2_in_r _ _ _ F2 _ X1) as (sx & SX & RX), (Forall2_in_r _ _ _ F2 _ Y1) as (sy & SY & RY), (Forall2_in_r _ _ _ F2 _ Z1) as (sz & SZ & RZ).
      assert (SUB : forall s, In s (sides_of pc ++ map (pair c) (pf ++ [f])) -> In s (sides_of cs)).
      { intros s S. rewrite EC. unfold sides_of. rewrite flat_map_app. apply in_or_app. apply in_app_or in S as [S | S]; [left; exact S|]. right. cbn [flat_map]. apply in_or_app. left.
        apply in_map_iff in S as (h & <- & H). apply in_map. rewrite EF. apply in_app_or in H as [H | [<- | []]]; apply in_or_app; [left | right; left]; auto. }
      destruct (in_sides _ _ (SUB _ SX)) as (ax & bx & HX), (in_sides _ _ (SUB _ SY)) as (ay & b_y & HY), (in_sides _ _ (SUB _ SZ)) as (az & bz & HZ).
      assert (EXY : sameset (corners dx (fst sx) (snd sx)) (corners dx (fst sy) (snd sy))).
      { apply (rep_same _ _ _ _ _ _ RX RY). cbn [snd]. rewrite <- (same_left _ _ _ X2). exact Y2. }
      assert (EXZ : sameset (corners dx (fst sx) (snd sx)) (corners dx (fst sz) (snd sz))).
      { apply (rep_same _ _ _ _ _ _ RX RZ). cbn [snd]. rewrite <- (same_left _ _ _ X2). exact Z2. }
      destruct RX as [PX _], RY as [PY _], RZ as [PZ _]. cbn [fst] in PX, PY, PZ.
      inversion ND as [|? ? NX ND']; subst. inversion ND' as [|? ? NY _]; subst. destruct (rd_two _ _ _ RD ax bx _ _ ay b_y _ _ az bz _ _ HX HY HZ EXY EXZ) as [Q | [Q | Q]]; subst; destruct HX as [HX _], HY as [HY _], HZ as [HZ _];
        [rewrite HX in HY; injection HY as Q | rewrite HX in HZ; injection HZ as Q | rewrite HY in HZ; injection HZ as Q]; rewrite Q in *; cbn in NX, NY; tauto. }
    destruct (insert_any n done m i fn (li_inv _ _ _ _ _ _ L)) as (m' & EI & V); [apply (rd_pid _ _ _ RD c IC) | apply NDn | apply T|].
    exists m', (i, fn). split; [exact EI|]. constructor; [exact V | exact F2 | apply (li_ns _ _ _ _ _ _ L) | exact NDn | exact T|].
    intros it H. apply in_app_or in H as [H | [<- | []]]; [apply (li_pid _ _ _ _ _ _ L it H) | apply (rd_pid _ _ _ RD c IC)].
  Qed.
End Loop.
