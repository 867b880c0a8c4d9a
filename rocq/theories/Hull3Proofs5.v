(* The starting tetrahedron. *)
From Verif Require Import Base BaseFacts Plane PlaneFacts MeshEditorModel AreaProofs BoxModel RayModel WithinProofs PolygonProps Hull3Model Hull3Spec Hull3Proofs Hull3Proofs2 Hull3Proofs3 Hull3Proofs4.
From Coq Require Import QArith Qabs Lqa Permutation.
Local Open Scope Q_scope.

Section Best.
  Context (better : p3 -> p3 -> bool) (k : p3 -> Q) (Hk : forall a b, better a b = true <-> k b < k a).
  Lemma best_ok ps l : forall b i, (b < length ps)%nat -> (forall j, (j < length l)%nat -> at3 l j = at3 ps (i + j)) -> (i + length l = length ps)%nat ->
    (forall j, (j < i)%nat -> k (at3 ps j) <= k (at3 ps b)) ->
    let r := best_from better b (at3 ps b) i l in (r < length ps)%nat /\ forall j, (j < length ps)%nat -> k (at3 ps j) <= k (at3 ps r).
  Proof.
    induction l as [|p l IH]; intros b i L E N H; cbn [best_from length] in *.
    - split; auto. intros j J. apply H. lia.
    - pose proof (E 0%nat ltac:(lia)) as E0. rewrite Nat.add_0_r in E0. unfold at3 at 1 in E0. cbn in E0. subst p.
      assert (E' : forall j, (j < length l)%nat -> at3 l j = at3 ps (S i + j)).
      { intros j J. specialize (E (S j) ltac:(lia)). unfold at3 at 1 in E. cbn in E. unfold at3 at 1. rewrite E. f_equal. lia. }
      destruct (better (at3 ps i) (at3 ps b)) eqn:X.
      + apply Hk in X. apply IH; [lia|auto|lia|]. intros j J. destruct (Nat.eq_dec j i) as [->|]; [lra|]. specialize (H j ltac:(lia)). lra.
      + assert (Y : ~ k (at3 ps b) < k (at3 ps i)) by (rewrite <- Hk; congruence). apply IH; [lia|auto|lia|]. intros j J. destruct (Nat.eq_dec j i) as [->|]; [lra|]. apply H. lia.
  Qed.
  Lemma best_start p t : let ps := p :: t in let r := best_from better 0 p 1 t in (r < length ps)%nat /\ forall j, (j < length ps)%nat -> k (at3 ps j) <= k (at3 ps r).
  Proof. intros ps. apply (best_ok ps t 0 1); [cbn; lia|intros; reflexivity|cbn; lia|]. intros j J. assert (j = 0)%nat by lia. subst. lra. Qed.
End Best.
Lemma max_ok lt k ps : (forall a b, lt a b = true <-> k a < k b) -> ps <> [] ->
  exists r, max_element lt ps = Ok r /\ (r < length ps)%nat /\ forall j, (j < length ps)%nat -> k (at3 ps j) <= k (at3 ps r).
Proof.
  intros H N. destruct ps as [|p t]; [congruence|]. cbn [max_element]. eexists. split; [reflexivity|].
  apply (best_start (fun a b => lt b a) k). intros a b. apply H.
Qed.
Lemma min_ok lt k ps : (forall a b, lt a b = true <-> k a < k b) -> ps <> [] ->
  exists r, min_element lt ps = Ok r /\ (r < length ps)%nat /\ forall j, (j < length ps)%nat -> k (at3 ps r) <= k (at3 ps j).
Proof.
  intros H N. destruct ps as [|p t]; [congruence|]. cbn [min_element]. eexists. split; [reflexivity|].
  destruct (best_start (fun a b => lt a b) (fun a => - k a)) with (p := p) (t := t) as [A B].
  - intros a b. rewrite H. lra.
  - split; auto. intros j J. specialize (B j J). cbv beta in B. lra.
Qed.
Lemma flat_x a b c d : X3 b == X3 a -> X3 c == X3 a -> X3 d == X3 a -> vol6 a b c d == 0.
Proof. intros A B C. v3. rewrite A, B, C. ring. Qed.
Lemma flat_y a b c d : Y3 b == Y3 a -> Y3 c == Y3 a -> Y3 d == Y3 a -> vol6 a b c d == 0.
Proof. intros A B C. v3. rewrite A, B, C. ring. Qed.
Lemma flat_z a b c d : Z3 b == Z3 a -> Z3 c == Z3 a -> Z3 d == Z3 a -> vol6 a b c d == 0.
Proof. intros A B C. v3. rewrite A, B, C. ring. Qed.

Section Start.
  Context (ps : list p3) (Sep : Separated ps).
  Local Notation n := (length ps).
  Local Notation P := (at3 ps).
  Lemma four_points : (4 <= n)%nat.
  Proof.
    destruct (sp_solid ps Sep) as (i & j & k & l & A & B & C & D & V).
    change 4%nat with (length [i; j; k; l]). rewrite <- (seq_length n 0). apply NoDup_incl_length.
    - apply diff4. repeat split; intros ->; apply V; unfold Vol; [apply vol6_aa|apply vol6_ac|apply vol6_bb|apply vol6_a|apply vol6_b|apply vol6_c].
    - intros x J. apply in_seq. cbn in J. intuition; subst; lia.
  Qed.
  Lemma ps_some : ps <> [].
  Proof. pose proof four_points. destruct ps; [cbn in *; lia|discriminate]. Qed.
  (* the extreme points along an axis differ *)
  Lemma ends (k : p3 -> Q) lt : (forall a b, lt a b = true <-> k a < k b) ->
    (forall a b c d, k b == k a -> k c == k a -> k d == k a -> vol6 a b c d == 0) ->
    exists lo hi, min_element lt ps = Ok lo /\ max_element lt ps = Ok hi /\ (lo < n)%nat /\ (hi < n)%nat /\ lo <> hi.
  Proof.
    intros H Fl. destruct (min_ok lt k ps H ps_some) as (lo & E1 & L1 & M1). destruct (max_ok lt k ps H ps_some) as (hi & E2 & L2 & M2).
    exists lo, hi. repeat (split; [auto|]). intros ->. destruct (sp_solid ps Sep) as (i & j & l & m & A & B & C & D & V). apply V. unfold Vol.
    assert (G : forall x y, (x < n)%nat -> (y < n)%nat -> k (P x) == k (P y)).
    { intros x y X Y. pose proof (M1 x X). pose proof (M2 x X). pose proof (M1 y Y). pose proof (M2 y Y). lra. }
    apply Fl; apply G; auto.
  Qed.
  Lemma len_pos i j : (i < n)%nat -> (j < n)%nat -> i <> j -> 0 < len2 (P i) (P j).
  Proof. intros A B C. pose proof (sp_far ps Sep i j A B (proj2 (diff2 i j) C)) as L. refine (Qlt_le_trans _ _ _ _ L). reflexivity. Qed.
  Lemma edge_ok : exists i j, starting_edge ps = Ok (i, j) /\ (i < n)%nat /\ (j < n)%nat /\ i <> j.
  Proof.
    destruct (ends X3 compareMinX) as (xl & xh & Ex1 & Ex2 & Lx1 & Lx2 & Nx); [intros; unfold compareMinX; apply qlt_bool_iff|apply flat_x|].
    destruct (ends Y3 compareMinY) as (yl & yh & Ey1 & Ey2 & Ly1 & Ly2 & Ny); [intros; unfold compareMinY; apply qlt_bool_iff|apply flat_y|].
    destruct (ends Z3 compareMinZ) as (zl & zh & Ez1 & Ez2 & Lz1 & Lz2 & Nz); [intros; unfold compareMinZ; apply qlt_bool_iff|apply flat_z|].
    unfold starting_edge. rewrite Ex1, Ex2, Ey1, Ey2, Ez1, Ez2. cbn [bind].
    rewrite (proj2 (Nat.eqb_neq _ _) Nx), (proj2 (Nat.eqb_neq _ _) Ny), (proj2 (Nat.eqb_neq _ _) Nz). cbn [negb andb assert bind].
    rewrite !get_at by auto. cbn [bind].
    change (dot3 (sub3 (P xh) (P xl)) (sub3 (P xh) (P xl))) with (len2 (P xl) (P xh)).
    change (dot3 (sub3 (P yh) (P yl)) (sub3 (P yh) (P yl))) with (len2 (P yl) (P yh)).
    change (dot3 (sub3 (P zh) (P zl)) (sub3 (P zh) (P zl))) with (len2 (P zl) (P zh)).
    rewrite (proj2 (qlt_bool_iff _ _) (len_pos xl xh Lx1 Lx2 Nx)), (proj2 (qlt_bool_iff _ _) (len_pos yl yh Ly1 Ly2 Ny)), (proj2 (qlt_bool_iff _ _) (len_pos zl zh Lz1 Lz2 Nz)).
    cbn [andb assert bind]. set (x := len2 (P xl) (P xh)). set (y := len2 (P yl) (P yh)). set (z := len2 (P zl) (P zh)). clearbody x y z.
    destruct (Qle_bool (qmax y z) x) eqn:E1; [eauto 10|]. destruct (Qle_bool z y) eqn:E2; [eauto 10|].
    assert (X1 : ~ qmax y z <= x) by (rewrite <- Qle_bool_iff; congruence). assert (X2 : ~ z <= y) by (rewrite <- Qle_bool_iff; congruence).
    assert (X3 : Qle_bool (qmax x y) z = true). { apply Qle_bool_iff. unfold qmax in *. destruct (Qlt_le_dec y z), (Qlt_le_dec x y); lra. }
    rewrite X3. cbn [assert bind]. eauto 10.
  Qed.
  Lemma line_score i j l : (i < n)%nat -> (j < n)%nat -> i <> j -> lineDistance2 (P l) (P i) (sub3 (P j) (P i)) == Qabs (area2 (P i) (P j) (P l) / len2 (P i) (P j)).
  Proof.
    intros A B C. unfold lineDistance2. pose proof (len_pos i j A B C) as L.
    assert (M : mag2 (sub3 (P j) (P i)) == len2 (P i) (P j)) by (unfold mag2; apply qmax_r; apply (sp_far ps Sep); auto; apply diff2; auto).
    rewrite M. rewrite line_dist by auto. reflexivity.
  Qed.
  Lemma other i j : exists l, (l < n)%nat /\ l <> i /\ l <> j.
  Proof.
    pose proof four_points. destruct (Nat.eq_dec 0 i), (Nat.eq_dec 0 j), (Nat.eq_dec 1 i), (Nat.eq_dec 1 j); try lia;
      first [exists 0%nat; lia|exists 1%nat; lia|exists 2%nat; lia].
  Qed.
  (* the tetrahedron i, j, k, a is right when k, a are chosen as the routine does *)
  Lemma start_ok : exists fs, starting_facets ps = Ok fs /\ Forall (okf ps) fs /\
    exists i j k a, map tri fs = [(i, j, k); (j, i, a); (i, k, a); (k, j, a)] /\ different [i; j; k; a] /\ Vol ps i j k a < 0.
  Proof.
    unfold starting_facets. destruct edge_ok as (i & j & E & Li & Lj & Nij). rewrite E. cbn [bind]. rewrite !get_at by auto. cbn [bind].
    destruct (max_ok (compareLine (P i) (sub3 (P j) (P i))) (fun x => lineDistance2 x (P i) (sub3 (P j) (P i))) ps) as (k & Ek & Lk & Mk); [intros; unfold compareLine; apply qlt_bool_iff|apply ps_some|].
    rewrite Ek. cbn [bind]. pose proof (len_pos i j Li Lj Nij) as Lp.
    assert (Sc : forall l, (l < n)%nat -> l <> i -> l <> j -> 0 < lineDistance2 (P l) (P i) (sub3 (P j) (P i))).
    { intros l Ll N1 N2. rewrite line_score by auto.
      assert (X : 0 < area2 (P i) (P j) (P l) / len2 (P i) (P j)).
      { assert (0 < area2 (P i) (P j) (P l)) by (apply area_pos; auto; apply diff3; auto). unfold Qdiv. apply sign_pp; auto. apply Qinv_lt_0_compat. auto. }
      rewrite Qabs_pos; lra. }
    assert (Z0 : forall l, l = i \/ l = j -> lineDistance2 (P l) (P i) (sub3 (P j) (P i)) == 0).
    { intros l H. rewrite line_score by auto. assert (A0 : area2 (P i) (P j) (P l) == 0) by (destruct H as [->| ->]; clear; set (x := P i); set (y := P j); clearbody x y; v3; ring).
      rewrite A0. unfold Qdiv. rewrite Qmult_0_l. reflexivity. }
    assert (Nk : k <> i /\ k <> j).
    { destruct (other i j) as (l & Ll & N1 & N2). pose proof (Mk l Ll) as X. cbv beta in X. pose proof (Sc l Ll N1 N2) as Y.
      pose proof (Z0 i (or_introl eq_refl)). pose proof (Z0 j (or_intror eq_refl)). split; intros ->; lra. }
    destruct Nk as [Nki Nkj]. unfold newFacet at 1. rewrite !get_at by auto. cbn [bind]. set (f := mkFacet i j k _).
    assert (Wf : okf ps f). { split; [cbn; auto|]. split; [apply diff3; auto|]. repeat split; reflexivity. }
    assert (Pl : forall x, dot3 (sub3 x (P i)) (fn f) == vol6 (P i) (P j) (P k) x) by (intros; symmetry; apply vol6_dot).
    destruct (max_ok (comparePlane (P i) (fn f)) (fun x => Qabs (dot3 (sub3 x (P i)) (fn f))) ps) as (a & Ea & La & Ma); [intros; unfold comparePlane; apply qlt_bool_iff|apply ps_some|].
    rewrite Ea. cbn [bind]. rewrite (get_at ps a La). cbn [bind].
    assert (Va : ~ Vol ps i j k a == 0).
    { intros Z. destruct (sp_solid ps Sep) as (i' & j' & k' & l' & A & B & C & D & V). apply V.
      assert (Ar : 0 < area2 (P i) (P j) (P k)) by (apply area_pos; auto; apply diff3; auto).
      assert (G : forall x, (x < n)%nat -> vol6 (P i) (P j) (P k) (P x) == 0).
      { intros x Lx. pose proof (Ma x Lx) as X. cbv beta in X. rewrite !Pl in X. change (vol6 (P i) (P j) (P k) (P a)) with (Vol ps i j k a) in X. rewrite Z in X. change (Qabs 0) with 0 in X.
        pose proof (Qabs_nonneg (vol6 (P i) (P j) (P k) (P x))). pose proof (Qle_Qabs (vol6 (P i) (P j) (P k) (P x))).
        pose proof (Qle_Qabs (- vol6 (P i) (P j) (P k) (P x))) as Y. rewrite Qabs_opp in Y. lra. }
      apply (coplanar (P i) (P j) (P k)); auto. }
    assert (Na : a <> i /\ a <> j /\ a <> k) by (repeat split; intros ->; apply Va, vol_zero; auto). destruct Na as (Nai & Naj & Nak).
    destruct (compare_at ps Sep f a Wf La) as (c & Ec & Hc). rewrite Ec. cbn [bind]. rewrite Hc. cbn [Dt tri fi fj fk f].
    (* after the flip *)
    assert (Fin : forall f' i' j', fi f' = i' -> fj f' = j' -> fk f' = k -> okf ps f' -> (i' < n)%nat -> (j' < n)%nat -> i' <> j' -> a <> i' -> a <> j' -> k <> i' -> k <> j' -> Vol ps i' j' k a < 0 ->
      exists fs, (do f1 <- newFacet (fj f') (fi f') a ps; do f2 <- newFacet (fi f') (fk f') a ps; do f3 <- newFacet (fk f') (fj f') a ps; Ok [f'; f1; f2; f3]) = Ok fs /\ Forall (okf ps) fs /\
        exists i j k a, map tri fs = [(i, j, k); (j, i, a); (i, k, a); (k, j, a)] /\ different [i; j; k; a] /\ Vol ps i j k a < 0).
    { intros f' i' j' Ei Ej Ekk W' Li' Lj' N1 N2 N3 N4 N5 Vn. rewrite Ei, Ej, Ekk. unfold newFacet. rewrite !get_at by auto. cbn [bind].
      eexists. split; [reflexivity|]. split.
      - assert (Nf : forall x y z, (x < n)%nat -> (y < n)%nat -> (z < n)%nat -> x <> y -> x <> z -> y <> z -> okf ps (mkFacet x y z (cross3 (sub3 (P y) (P x)) (sub3 (P z) (P x))))).
        { intros. split; [cbn; auto|]. split; [apply diff3; auto|]. repeat split; reflexivity. }
        constructor; [auto|]. constructor; [apply Nf; auto|]. constructor; [apply Nf; auto|]. constructor; [apply Nf; auto|constructor].
      - exists i', j', k, a. cbn [map]. unfold tri at 1. rewrite Ei, Ej, Ekk. split; [reflexivity|]. split; [apply diff4; intuition|auto]. }
    destruct (qltb_spec 0 (Vol ps i j k a)) as [X|X].
    - apply (Fin (flipFacet f) j i); auto.
      + destruct Wf as (_ & _ & Wn). split; [cbn; auto|]. split; [apply diff3; auto|]. apply flip_normal. exact Wn.
      + assert (Sw : Vol ps j i k a == - Vol ps i j k a) by (unfold Vol; apply vol6_swap). lra.
    - apply (Fin f i j); auto. destruct (Qlt_le_dec (Vol ps i j k a) 0); auto. destruct Va. lra.
  Qed.
  Lemma start_inv fs : Forall (okf ps) fs -> (exists i j k a, map tri fs = [(i, j, k); (j, i, a); (i, k, a); (k, j, a)] /\ different [i; j; k; a] /\ Vol ps i j k a < 0) ->
    Inv ps (filter (fun r => existsb (above ps r) fs) (seq 0 n)) (map tri fs).
  Proof.
    intros W (i & j & k & a & E & D & V). set (R := filter _ (seq 0 n)).
    assert (HR : forall r, In r R <-> (r < n)%nat /\ exists t, In t (map tri fs) /\ 0 < Dt ps t r).
    { intros r. unfold R. rewrite filter_In, in_seq, existsb_exists. split.
      - intros (J & f & Jf & X). split; [lia|]. exists (tri f). split; [apply in_map; auto|]. apply qlt_bool_iff in X. auto.
      - intros (J & t & Jt & X). split; [lia|]. apply in_map_iff in Jt. destruct Jt as (f & <- & Jf). exists f. split; auto. apply qlt_bool_iff. auto. }
    assert (V1 : Vol ps j i a k < 0) by (assert (X : Vol ps j i a k == Vol ps i j k a) by (unfold Vol; rewrite vol6_swap, vol6_last; ring); lra).
    assert (V2 : Vol ps i k a j < 0) by (assert (X : Vol ps i k a j == Vol ps i j k a) by (unfold Vol; rewrite vol6_last, vol6_mid; ring); lra).
    assert (V3 : Vol ps k j a i < 0).
    { assert (X : Vol ps k j a i == Vol ps i j k a) by (unfold Vol; rewrite vol6_ends, vol6_last; ring). lra. }
    assert (Vx : forall t, In t (map tri fs) -> forall x, In x [i; j; k; a] -> Dt ps t x <= 0).
    { rewrite E. intros t J x Jx. cbn in J, Jx. destruct J as [<-|[<-|[<-|[<-|[]]]]], Jx as [<-|[<-|[<-|[<-|[]]]]]; cbn [Dt]; try (rewrite vol_zero by auto; lra); lra. }
    assert (Kn : forall x, In x [i; j; k; a] -> ~ In x R).
    { intros x Jx J. apply HR in J. destruct J as (_ & t & Jt & X). pose proof (Vx t Jt x Jx). lra. }
    assert (Ln : forall t, In t (map tri fs) -> let '(x, y, z) := t in (x < n /\ y < n /\ z < n)%nat).
    { intros t J. apply in_map_iff in J. destruct J as (f & <- & Jf). rewrite Forall_forall in W. destruct (W f Jf) as (L & _). exact L. }
    pose proof (diff4 i j k a) as D4. apply D4 in D. destruct D as (D1 & D2 & D3 & D5 & D6 & D7). clear D4.
    assert (L4 : (i < n /\ j < n /\ k < n /\ a < n)%nat).
    { pose proof (Ln (i, j, k)) as A1. pose proof (Ln (j, i, a)) as A2. rewrite E in A1, A2. cbn in A1, A2. intuition. }
    constructor.
    - rewrite E. discriminate.
    - intros x y z J. pose proof (Ln _ J) as L. cbn in L. split; auto. rewrite E in J. cbn in J.
      destruct J as [J|[J|[J|[J|[]]]]]; injection J as <- <- <-; (split; [apply diff3; auto|]; repeat split; apply Kn; cbn; auto).
    - intros t q J L N. destruct (Qlt_le_dec 0 (Dt ps t q)); auto. destruct N. apply HR. eauto.
    - intros t J. rewrite E in J. cbn in J. destruct J as [<-|[<-|[<-|[<-|[]]]]]; [exists a|exists k|exists j|exists i]; (split; [tauto|]; split; [apply Kn; cbn; auto|cbn; auto]).
    - rewrite E. cbn. repeat constructor; cbn; intros X; repeat (destruct X as [X|X]; [injection X; intros; congruence|]); auto.
    - rewrite E. cbn. intros x y X. repeat (destruct X as [X|X]; [injection X as <- <-; auto 15|]). destruct X.
    - intros r J. apply HR in J. auto.
  Qed.
  Lemma hull3_ok : exists fs, hull3 ps = Ok fs /\ HullSurface ps (map tri fs).
  Proof.
    unfold hull3. pose proof four_points as F. apply Nat.leb_le in F. rewrite F. cbn [assert bind]. destruct start_ok as (fs & E & W & X). rewrite E. cbn [bind].
    rewrite exteriorPoints_ok; auto; [|intros r J; apply in_seq in J; lia]. cbn [bind]. apply grow_ok; auto. apply start_inv; auto.
  Qed.
End Start.
