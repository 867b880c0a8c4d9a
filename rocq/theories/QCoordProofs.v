(* Facts about the integer grid of QCoordModel.v. *)
From Coq Require Import QArith Qabs Qround Lqa.
From Verif Require Import Base BaseFacts PLCSpec PLCProofs BoxModel BoxProofs BoxProps MeshEditorModel HullModel VoroModel HashSpec PointModel PointProps QCoordModel QCoordSpec.
Local Open Scope nat_scope.

Lemma coord_tab D f j : j < D -> coord (tab D f) j = f j.
Proof.
  intros L. unfold coord, tab. rewrite (nth_indep _ 0%Q (f 0)) by (rewrite map_length, seq_length; auto). rewrite map_nth, seq_nth; auto.
Qed.
Lemma qmin_spec a b : (qmin a b <= a)%Q /\ (qmin a b <= b)%Q /\ (qmin a b = a \/ qmin a b = b).
Proof. unfold qmin. destruct (Qlt_le_dec b a); repeat split; auto; lra. Qed.
Lemma qmax_spec a b : (a <= qmax a b)%Q /\ (b <= qmax a b)%Q /\ (qmax a b = a \/ qmax a b = b).
Proof. unfold qmax. destruct (Qlt_le_dec a b); repeat split; auto; lra. Qed.
Lemma qlt_iff a b : Qlt_bool a b = true <-> (a < b)%Q.
Proof. unfold Qlt_bool. rewrite negb_true_iff. split; intros H; [apply Qnot_le_lt; intros L; apply Qle_bool_iff in L; congruence|]. destruct (Qle_bool b a) eqn:E; auto. apply Qle_bool_iff in E. lra. Qed.
Lemma all_axes D (f : nat -> bool) : forallb f (seq 0 D) = true <-> forall j, j < D -> f j = true.
Proof. rewrite forallb_forall. split; intros H j L; apply H; apply in_seq in L || apply in_seq; lia. Qed.

(* ---- the box of points ---- *)
Lemma vertex_len D (ps : list Q) i : 0 < D -> i < length ps / D -> length (vertex D ps i) = D.
Proof.
  intros D0 L. unfold vertex. rewrite firstn_length, skipn_length. pose proof (Nat.div_mod (length ps) D ltac:(lia)). nia.
Qed.
Lemma box_is D big ps lo hi : 0 < D -> (forall x, In x ps -> (- big <= x <= big)%Q) -> local_box D big ps = Ok (lo, hi) -> 0 < length ps -> BoxAround D ps lo hi.
Proof.
  intros D0 Rg E L.
  assert (M : length ps mod D = 0) by (unfold local_box in E; apply bind_ok in E as (u & U & _); apply assert_ok in U; apply Nat.eqb_eq; auto).
  destruct (bounding_box_tight D big ps L M Rg) as ([lo' hi'] & E' & [Ll Lh Ti Tl Th]). rewrite E in E'. injection E' as <- <-. cbn [fst snd] in *.
  assert (Nt : forall l j, length l = D -> j < D -> nth_error l j = Some (coord l j)) by (intros l j A B; unfold coord; rewrite <- A in B; apply nth_error_nth'; auto).
  assert (Bk : forall p, In p (points_of D ps) -> exists i, i < length ps / D /\ p = vertex D ps i).
  { intros p I. unfold points_of in I. apply in_map_iff in I as (i & <- & I). apply in_seq in I. exists i. split; auto. lia. }
  constructor.
  - intros i Li j Lj. apply (Ti (vertex D ps i) j); auto; [unfold points_of; apply in_map, in_seq; lia|].
    apply Nt; auto. apply vertex_len; auto.
  - intros j Lj. destruct (Tl j _ (Nt lo j Ll Lj)) as (p & x & I & Hx & Q). destruct (Bk p I) as (i & Li & ->). exists i. split; auto.
    rewrite (Nt _ j (vertex_len D ps i D0 Li) Lj) in Hx. injection Hx as ->. exact Q.
  - intros j Lj. destruct (Th j _ (Nt hi j Lh Lj)) as (p & x & I & Hx & Q). destruct (Bk p I) as (i & Li & ->). exists i. split; auto.
    rewrite (Nt _ j (vertex_len D ps i D0 Li) Lj) in Hx. injection Hx as ->. exact Q.
Qed.
Lemma box_none D big lo hi : 0 < D -> (0 < big)%Q -> local_box D big [] = Ok (lo, hi) -> (coord hi 0 < coord lo 0)%Q.
Proof.
  intros D0 B E. unfold local_box in E. apply bind_ok in E as (u & U & E). cbn [length] in E. rewrite Nat.div_0_l in E by lia. cbn in E. injection E as <- <-.
  destruct D as [|D]; [lia|]. cbn. lra.
Qed.

(* ---- the sphere ---- *)
Definition c_of (lo hi : list Q) (j : nat) : Q := ((1 # 2) * (coord hi j + coord lo j))%Q.
Lemma sphere_ok lo hi js : forall r0 r, mfold (sphere_step lo hi) js r0 = Ok r ->
  (r0 <= r)%Q /\ (forall j, In j js -> (coord lo j <= coord hi j /\ (3 # 4) * (coord hi j - coord lo j) <= r /\ c_of lo hi j - r < coord lo j /\ coord hi j < c_of lo hi j + r)%Q) /\
  (r = r0 \/ exists j, In j js /\ r = ((3 # 4) * (coord hi j - coord lo j))%Q).
Proof.
  induction js as [|j js IH]; intros r0 r E.
  - injection E as <-. split; [lra|]. split; [intros j []|auto].
  - cbn [mfold] in E. apply bind_ok in E as (r1 & E1 & E). destruct (IH r1 r E) as (L & H & V). unfold sphere_step in E1.
    apply bind_ok in E1 as (u & U & E1). apply assert_ok, Qle_bool_iff in U. apply bind_ok in E1 as (v & A & E1). apply assert_ok in A.
    rewrite andb_true_iff, !qlt_iff in A. destruct A as [A1 A2]. assert (E2 : qmax r0 ((3 # 4) * (at_ hi j - at_ lo j))%Q = r1) by congruence. rewrite E2 in A1, A2.
    change at_ with coord in *. destruct (qmax_spec r0 ((3 # 4) * (coord hi j - coord lo j))%Q) as (M1 & M2 & M3). rewrite E2 in M1, M2, M3.
    split; [lra|]. split.
    + intros k [<- | I]; [|apply H; auto]. unfold c_of. repeat split; lra.
    + destruct V as [-> | (k & I & ->)]; [|right; exists k; cbn; auto]. destruct M3 as [-> | ->]; auto. right. exists j. cbn. auto.
Qed.
Lemma sphere_go lo hi js : forall r0, (0 < r0)%Q -> (forall j, In j js -> (coord lo j <= coord hi j)%Q) -> exists r, mfold (sphere_step lo hi) js r0 = Ok r.
Proof.
  induction js as [|j js IH]; intros r0 P H; [eexists; reflexivity|]. cbn [mfold].
  destruct (qmax_spec r0 ((3 # 4) * (coord hi j - coord lo j))%Q) as (M1 & M2 & M3). pose proof (H j (or_introl eq_refl)) as L.
  assert (E : sphere_step lo hi r0 j = Ok (qmax r0 ((3 # 4) * (coord hi j - coord lo j))%Q)).
  { unfold sphere_step. change at_ with coord. rewrite (proj2 (Qle_bool_iff _ _) L). cbn [assert bind].
    set (r' := qmax r0 _) in *. replace (Qlt_bool _ _ && Qlt_bool _ _) with true; [reflexivity|]. symmetry. rewrite andb_true_iff, !qlt_iff. split; lra. }
  rewrite E. cbn [bind]. apply IH; [lra|]. intros k I. apply H. right. exact I.
Qed.
Lemma bounds_ok D r c lo hi lo' hi' : bounds_from_radius D r c lo hi = Ok (lo', hi') ->
  (0 < r)%Q /\ (forall j, j < D -> coord lo' j = qmin (coord lo j) (coord c j - r)%Q /\ coord hi' j = qmax (coord hi j) (coord c j + r)%Q).
Proof.
  intros E. unfold bounds_from_radius in E. apply bind_ok in E as (u & U & E). apply assert_ok, qlt_iff in U. cbv zeta in E. apply bind_ok in E as (v & V & E).
  assert (E1 : tab D (fun j => qmin (at_ lo j) (at_ c j - r)%Q) = lo') by congruence. assert (E2 : tab D (fun j => qmax (at_ hi j) (at_ c j + r)%Q) = hi') by congruence.
  split; auto. intros j L. rewrite <- E1, <- E2, !coord_tab; auto.
Qed.
Lemma bounds_go D r c lo hi : (0 < r)%Q -> exists b, bounds_from_radius D r c lo hi = Ok b.
Proof.
  intros P. unfold bounds_from_radius. rewrite (proj2 (qlt_iff _ _) P). cbn [assert bind]. cbv zeta.
  replace (forallb _ _) with true; [eexists; reflexivity|]. symmetry. apply all_axes. intros j L. change at_ with coord. rewrite !coord_tab; auto. apply Qle_bool_iff.
  destruct (qmin_spec (coord lo j) (coord c j - r)%Q) as (_ & A & _). destruct (qmax_spec (coord hi j) (coord c j + r)%Q) as (_ & B & _). lra.
Qed.
Lemma trunc_int z : trunc (inject_Z z) = z.
Proof. unfold trunc. destruct (Qle_bool 0 (inject_Z z)); [apply Qfloor_Z|apply Qceiling_Z]. Qed.
Lemma max_coord_iff size d m : (0 < size)%Q -> (0 < d)%Q -> max_coord size d = Ok m <-> m = Qceiling (size / d) /\ (m < 2 ^ 31 - 1)%Z.
Proof.
  intros Sz Dp. unfold max_coord. destruct (Qeq_bool d 0) eqn:Z0; [apply Qeq_bool_eq in Z0; lra|].
  assert (P : (0 < Qceiling (size / d))%Z).
  { assert (X : (0 < size / d)%Q) by (apply Qlt_shift_div_l; auto; lra). pose proof (Qle_ceiling (size / d)) as Y. assert (W : (inject_Z 0 < inject_Z (Qceiling (size / d)))%Q) by (change (inject_Z 0) with 0%Q; lra). rewrite <- Zlt_Qlt in W. exact W. }
  split.
  - intros E. apply bind_ok in E as (z & Ez & E). apply bind_ok in E as (u & U & E). apply assert_ok, Z.ltb_lt in U. assert (z = m) by congruence. subst z.
    apply as_int_ok in Ez as [-> _]. rewrite trunc_int in *. auto.
  - intros [-> L]. rewrite as_int_in by (rewrite trunc_int; lia). cbn [bind]. rewrite trunc_int. rewrite (proj2 (Z.ltb_lt _ _) L). reflexivity.
Qed.

(* ---- initialize ---- *)
Record Started (D : nat) (ps : list Q) (d : Q) (q : coords) : Prop := {
  st_d : delta q = d /\ deg q = Some d;
  st_flags : modified q = false /\ two q = false;
  st_outer : low_out q = low_in q /\ high_out q = high_in q /\ r_out q = r_in q;
  st_r : (0 < r_in q)%Q;
  st_box : forall lo hi, BoxAround D ps lo hi -> forall j, j < D ->
     (coord (mid q) j == (1 # 2) * (coord lo j + coord hi j))%Q /\ (coord (mid q) j - r_in q < coord lo j)%Q /\ (coord hi j < coord (mid q) j + r_in q)%Q /\ ((3 # 4) * (coord hi j - coord lo j) <= r_in q)%Q;
  st_big : forall lo hi, BoxAround D ps lo hi -> exists j, j < D /\ (r_in q == (3 # 4) * (coord hi j - coord lo j))%Q;
  st_sides : forall j, j < D -> (coord (low_in q) j == coord (mid q) j - r_in q)%Q /\ (coord (high_in q) j == coord (mid q) j + r_in q)%Q;
  st_max : exists m, cmax q = Some m /\ max_coord (2 * r_in q) d = Ok m;
  st_plc : plc_pts q = corners D (low_in q) (high_in q) /\ plc_facets q = sides D }.
Lemma same_box D ps lo hi lo' hi' : BoxAround D ps lo hi -> BoxAround D ps lo' hi' -> forall j, j < D -> (coord lo j == coord lo' j /\ coord hi j == coord hi' j)%Q.
Proof.
  intros A B j L. destruct (ba_lo _ _ _ _ A j L) as (i & Li & X). destruct (ba_lo _ _ _ _ B j L) as (i' & Li' & X').
  destruct (ba_hi _ _ _ _ A j L) as (k & Lk & Y). destruct (ba_hi _ _ _ _ B j L) as (k' & Lk' & Y').
  pose proof (ba_in _ _ _ _ A i' Li' j L). pose proof (ba_in _ _ _ _ B i Li j L). pose proof (ba_in _ _ _ _ A k' Lk' j L). pose proof (ba_in _ _ _ _ B k Lk j L). split; lra.
Qed.
Lemma initialize_ok D big ps d q0 q : 0 < D -> (0 < big)%Q -> (forall x, In x ps -> (- big <= x <= big)%Q) -> initialize D big ps d q0 = Ok q -> 0 < length ps /\ Started D ps d q.
Proof.
  intros D0 B Rg E. unfold initialize in E. apply bind_ok in E as ([lo hi] & Eb & E). apply bind_ok in E as (c & Ec & E). apply bind_ok in E as (r & Er & E).
  apply bind_ok in E as ([lo' hi'] & Es & E). apply bind_ok in E as (m & Em & E).
  destruct (sphere_ok _ _ _ _ _ Er) as (R0 & H & V). assert (H' : forall j, j < D -> (coord lo j <= coord hi j /\ (3 # 4) * (coord hi j - coord lo j) <= r /\ c_of lo hi j - r < coord lo j /\ coord hi j < c_of lo hi j + r)%Q) by (intros j L; apply H, in_seq; lia).
  assert (N : 0 < length ps).
  { destruct ps as [|x ps]; [|cbn; lia]. destruct (H' 0 D0) as (A & _). pose proof (box_none D big lo hi D0 B Eb). lra. }
  split; auto. pose proof (box_is D big ps lo hi D0 Rg Eb N) as Ba.
  unfold center_of in Ec. apply bind_ok in Ec as (u & U & Ec). assert (Cj : forall j, j < D -> coord c j = ((1 # 2) * (coord lo j + coord hi j))%Q) by (intros j L; assert (X : tab D (fun j => (1 # 2) * (at_ lo j + at_ hi j))%Q = c) by congruence; rewrite <- X, coord_tab; auto).
  destruct (bounds_ok _ _ _ _ _ _ _ Es) as (Rp & Sb). assert (Eq : mkCoords lo' hi' lo' hi' d r r c (Some d) (Some m) false false (corners D lo' hi') (sides D) = q) by congruence. subst q.
  constructor; cbn [delta deg modified two low_out low_in high_out high_in r_out r_in mid cmax plc_pts plc_facets]; auto.
  - intros l h Ba' j L. destruct (same_box _ _ _ _ _ _ Ba Ba' j L) as [X Y]. destruct (H' j L) as (A1 & A2 & A3 & A4). unfold c_of in *. rewrite (Cj j L). repeat split; lra.
  - intros l h Ba'. destruct V as [-> | (j & I & ->)]; [exfalso; lra|]. apply in_seq in I. assert (L : j < D) by lia. exists j. split; auto. destruct (same_box _ _ _ _ _ _ Ba Ba' j L) as [X Y]. lra.
  - intros j L. destruct (Sb j L) as [-> ->]. destruct (H' j L) as (A1 & A2 & A3 & A4). unfold c_of in *. rewrite (Cj j L).
    destruct (qmin_spec (coord lo j) ((1 # 2) * (coord lo j + coord hi j) - r)%Q) as (M1 & M2 & M3). destruct (qmax_spec (coord hi j) ((1 # 2) * (coord lo j + coord hi j) + r)%Q) as (N1 & N2 & N3).
    split; [destruct M3 as [M3|M3]; rewrite M3 in *; lra|destruct N3 as [N3|N3]; rewrite N3 in *; lra].
  - exists m. auto.
Qed.

(* ---- expand ---- *)
Lemma half_ok plow phigh q js : forall h0 h, mfold (half_step plow phigh q) js h0 = Ok h ->
  (h0 <= h)%Q /\ forall j, In j js -> (coord plow j <= coord phigh j /\ coord phigh j - coord (mid q) j <= h /\ coord (high_out q) j - coord (mid q) j <= h /\
    coord (mid q) j - coord plow j <= h /\ coord (mid q) j - coord (low_out q) j <= h)%Q.
Proof.
  induction js as [|j js IH]; intros h0 h E.
  - injection E as <-. split; [lra|]. intros j [].
  - cbn [mfold] in E. apply bind_ok in E as (h1 & E1 & E). destruct (IH h1 h E) as (L & H). unfold half_step in E1.
    apply bind_ok in E1 as (u & U & E1). apply assert_ok, Qle_bool_iff in U. apply bind_ok in E1 as (v & A & E1). apply bind_ok in E1 as (w & A' & E1). cbv zeta in E1. clear A A'.
    change at_ with coord in *.
    set (a := (qmax (coord phigh j) (coord (high_out q) j) - coord (mid q) j)%Q) in E1. set (b := (coord (mid q) j - qmin (coord plow j) (coord (low_out q) j))%Q) in E1.
    assert (E2 : qmax (qmax h0 a) b = h1) by congruence. destruct (qmax_spec h0 a) as (M1 & M2 & _). destruct (qmax_spec (qmax h0 a) b) as (M3 & M4 & _). rewrite E2 in M3, M4.
    destruct (qmax_spec (coord phigh j) (coord (high_out q) j)) as (P1 & P2 & _). destruct (qmin_spec (coord plow j) (coord (low_out q) j)) as (P3 & P4 & _). unfold a, b in *.
    split; [lra|]. intros k [<- | I]; [|apply H; auto]. repeat split; lra.
Qed.
Record Grown (D : nat) (plow phigh : list Q) (t : bool) (q q' : coords) : Prop := {
  gr_set : plc_pts q <> [];
  gr_order : forall j, j < D -> (coord plow j <= coord phigh j)%Q;
  gr_new : forall j, j < D -> (coord (low_out q') j <= coord plow j /\ coord phigh j <= coord (high_out q') j)%Q;
  gr_old : forall j, j < D -> (coord (low_out q') j <= coord (low_out q) j /\ coord (high_out q) j <= coord (high_out q') j)%Q;
  gr_sphere : forall j, j < D -> (coord (low_out q') j <= coord (mid q') j - r_out q' /\ coord (mid q') j + r_out q' <= coord (high_out q') j)%Q;
  gr_r : (0 < r_out q')%Q /\ (r_out q <= r_out q')%Q;
  gr_keep : mid q' = mid q /\ delta q' = delta q /\ deg q' = deg q /\ plc_pts q' = plc_pts q /\ plc_facets q' = plc_facets q /\ modified q' = false /\ two q' = t;
  gr_two : t = true -> low_in q' = low_in q /\ high_in q' = high_in q /\ r_in q' = r_in q /\ cmax q' = cmax q;
  gr_one : t = false -> low_in q' = low_out q' /\ high_in q' = high_out q' /\ r_in q' = r_out q' /\ exists d m, deg q = Some d /\ cmax q' = Some m /\ max_coord (2 * r_in q') d = Ok m }.
Lemma expand_ok D plow phigh t q q' : expand_bounds D plow phigh t q = Ok q' -> Grown D plow phigh t q q'.
Proof.
  intros E. unfold expand_bounds in E. apply bind_ok in E as (u & U & E). apply assert_ok, andb_true_iff in U. destruct U as [U _]. apply bind_ok in E as (u1 & _ & E). apply bind_ok in E as (u2 & _ & E).
  apply bind_ok in E as (h & Eh & E). cbv zeta in E. apply bind_ok in E as ([lo hi] & Es & E). apply bind_ok in E as (q1 & E1 & E). apply bind_ok in E as (u3 & Rp & E). apply assert_ok, qlt_iff in Rp.
  assert (q1 = q') by congruence. subst q1. clear E.
  destruct (half_ok _ _ _ _ _ _ Eh) as (H0 & Hh). assert (Hj : forall j, j < D -> _) by (intros j L; exact (Hh j (proj2 (in_seq D 0 j) ltac:(lia)))). clear Hh. cbn beta in Hj.
  destruct (bounds_ok _ _ _ _ _ _ _ Es) as (R0 & Sb). destruct (qmax_spec (r_out q) (3 * h)) as (M1 & M2 & _). set (r := qmax (r_out q) (3 * h)) in *.
  assert (Sj : forall j, j < D -> (coord lo j <= coord (mid q) j - r /\ coord (mid q) j + r <= coord hi j)%Q).
  { intros j L. destruct (Sb j L) as [-> ->]. rewrite !coord_tab by auto. destruct (qmin_spec 0 (coord (mid q) j - r)%Q) as (_ & A & _). destruct (qmax_spec 0 (coord (mid q) j + r)%Q) as (_ & B & _). auto. }
  assert (Out : low_out q' = lo /\ high_out q' = hi /\ r_out q' = r /\ mid q' = mid q /\ delta q' = delta q /\ deg q' = deg q /\ plc_pts q' = plc_pts q /\ plc_facets q' = plc_facets q /\ modified q' = false /\ two q' = t /\
    (t = true -> low_in q' = low_in q /\ high_in q' = high_in q /\ r_in q' = r_in q /\ cmax q' = cmax q) /\
    (t = false -> low_in q' = lo /\ high_in q' = hi /\ r_in q' = r /\ exists d m, deg q = Some d /\ cmax q' = Some m /\ max_coord (2 * r) d = Ok m)).
  { destruct t.
    - assert (X : q' = mkCoords (low_in q) (high_in q) lo hi (delta q) (r_in q) r (mid q) (deg q) (cmax q) false true (plc_pts q) (plc_facets q)) by congruence. rewrite X. cbn. repeat (split; [reflexivity|]). split; [auto|discriminate].
    - apply bind_ok in E1 as (d & Ed & E1). apply bind_ok in E1 as (m & Em & E1). unfold degeneracy in Ed. destruct (deg q) as [d'|] eqn:Dq; [|discriminate]. assert (d' = d) by congruence. subst d'.
      assert (X : q' = mkCoords lo hi lo hi (delta q) r r (mid q) (Some d) (Some m) false false (plc_pts q) (plc_facets q)) by congruence. rewrite X. cbn. repeat (split; [reflexivity|]). split; [discriminate|]. intros _. repeat (split; [reflexivity|]). exists d, m. auto. }
  destruct Out as (El & Eh' & Er & K1 & K2 & K3 & K4 & K5 & K6 & K7 & Kt & Kf). rewrite Er in *.
  constructor; rewrite ?El, ?Eh', ?Er, ?K1.
  - intros Z. rewrite Z in U. discriminate.
  - intros j L. apply (Hj j L).
  - intros j L. destruct (Hj j L) as (A1 & A2 & A3 & A4 & A5). destruct (Sj j L). split; lra.
  - intros j L. destruct (Hj j L) as (A1 & A2 & A3 & A4 & A5). destruct (Sj j L). split; lra.
  - exact Sj.
  - auto.
  - auto 8.
  - exact Kt.
  - intros Ht. destruct (Kf Ht) as (-> & -> & -> & X). auto.
Qed.

(* ---- histories ---- *)
Record Good (D : nat) (q : coords) (seen : list (list Q)) : Prop := {
  gd_out : forall ps, In ps seen -> Holds D (low_out q) (high_out q) ps;
  gd_nest : forall j, j < D -> (coord (low_out q) j <= coord (low_in q) j /\ coord (high_in q) j <= coord (high_out q) j)%Q;
  gd_one : two q = false -> low_in q = low_out q /\ high_in q = high_out q /\ r_in q = r_out q;
  gd_set : plc_pts q = [] \/ seen <> [] /\ (forall j, j < D -> (coord (low_out q) j <= coord (mid q) j - r_out q /\ coord (mid q) j + r_out q <= coord (high_out q) j)%Q) /\ (0 < r_out q)%Q;
  gd_first : seen <> [] -> Holds D (low_in q) (high_in q) (last seen []) /\ forall lo hi, BoxAround D (last seen []) lo hi -> forall j, j < D -> (coord (mid q) j == (1 # 2) * (coord lo j + coord hi j))%Q }.
Lemma holds_wider D lo hi lo' hi' ps : (forall j, j < D -> (coord lo' j <= coord lo j /\ coord hi j <= coord hi' j)%Q) -> Holds D lo hi ps -> Holds D lo' hi' ps.
Proof. intros W H i L j Lj. destruct (H i L j Lj). destruct (W j Lj). split; lra. Qed.
Lemma cleared_good D d m : Good D (cleared D d m) [].
Proof. constructor; cbn; auto; [intros ps []|intros; split; lra|congruence]. Qed.
Lemma step_good D big o q q' seen rest : 0 < D -> (0 < big)%Q -> (forall ps, (exists d, o = Initialize ps d) \/ (exists t, o = Expand ps t) -> forall x, In x ps -> (- big <= x <= big)%Q) ->
  Good D q seen -> step D big q o = Ok q' -> exists seen', Good D q' seen' /\ given_from (o :: rest) seen = given_from rest seen'.
Proof.
  intros D0 B Rg G E. destruct o as [ps d|ps t|d|]; cbn [step given_from] in *.
  - destruct (initialize_ok D big ps d _ q' D0 B (Rg ps (or_introl (ex_intro _ d eq_refl))) E) as [N St]. exists [ps]. split; [|reflexivity].
    assert (Ba : exists lo hi, BoxAround D ps lo hi). { unfold initialize in E. apply bind_ok in E as ([lo hi] & Eb & _). exists lo, hi. apply (box_is D big); auto. apply Rg. left. eauto. }
    destruct Ba as (lo & hi & Ba). destruct St as [_ [_ Tw] (O1 & O2 & O3) Rp Bx _ Sd _ _].
    assert (Hin : Holds D (low_in q') (high_in q') ps).
    { apply (holds_wider D lo hi); [|apply (ba_in _ _ _ _ Ba)]. intros j L. destruct (Bx lo hi Ba j L) as (X1 & X2 & X3 & X4). destruct (Sd j L). split; lra. }
    constructor; rewrite ?O1, ?O2, ?O3; auto.
    + intros p [<- | []]. exact Hin.
    + intros j L. split; lra.
    + right. split; [discriminate|]. split; auto. intros j L. destruct (Sd j L). split; lra.
    + intros _. cbn [last]. split; auto. intros l h Ba' j L. apply (Bx l h Ba' j L).
  - exists (ps :: seen). split; [|reflexivity]. unfold expand in E. apply bind_ok in E as ([pl ph] & Eb & E).
    destruct (expand_ok _ _ _ _ _ _ E) as [Gs Go Gn Gold Gsp [Gr Gr'] (K1 & K2 & K3 & K4 & K5 & K6 & K7) Gt Gf].
    assert (Rp : forall x, In x ps -> (- big <= x <= big)%Q) by (apply Rg; right; eauto).
    assert (N : 0 < length ps). { destruct ps as [|x ps]; [|cbn; lia]. pose proof (box_none D big pl ph D0 B Eb). pose proof (Go 0 D0). lra. }
    pose proof (box_is D big ps pl ph D0 Rp Eb N) as Ba. destruct G as [G1 G2 G3 G4 G5].
    assert (In1 : forall j, j < D -> (coord (low_out q') j <= coord (low_in q) j /\ coord (high_in q) j <= coord (high_out q') j)%Q) by (intros j L; destruct (G2 j L); destruct (Gold j L); split; lra).
    assert (Sn : seen <> []) by (destruct G4 as [Z|[H _]]; auto).
    assert (La : last (ps :: seen) [] = last seen []) by (destruct seen; [congruence|reflexivity]).
    assert (Wd : forall j, j < D -> (coord (low_in q') j <= coord (low_in q) j /\ coord (high_in q) j <= coord (high_in q') j)%Q).
    { destruct t; [destruct (Gt eq_refl) as (-> & -> & _); intros; split; lra|]. destruct (Gf eq_refl) as (-> & -> & _). exact In1. }
    constructor.
    + intros p [<- | I]; [apply (holds_wider D pl ph); auto; apply (ba_in _ _ _ _ Ba)|]. apply (holds_wider D (low_out q) (high_out q)); auto.
    + destruct t; [destruct (Gt eq_refl) as (-> & -> & _); exact In1|]. destruct (Gf eq_refl) as (-> & -> & _). intros; split; lra.
    + rewrite K7. intros ->. destruct (Gf eq_refl) as (A1 & A2 & A3 & _). auto.
    + right. split; [discriminate|]. split; auto.
    + intros _. rewrite La. destruct (G5 Sn) as [F1 F2]. split; [apply (holds_wider D (low_in q) (high_in q)); auto|]. rewrite K1. exact F2.
  - exists seen. split; [|reflexivity]. assert (X : set_degeneracy d q = q') by congruence. subst q'. destruct G. constructor; auto.
  - exists []. split; [|reflexivity]. assert (X : coords_clear D q = q') by congruence. subst q'. apply cleared_good.
Qed.
Lemma run_good D big ops : 0 < D -> (0 < big)%Q -> forall q q' seen, in_range big ops -> Good D q seen -> mfold (step D big) ops q = Ok q' -> Good D q' (given_from ops seen).
Proof.
  intros D0 B. induction ops as [|o ops IH]; intros q q' seen Rg G E.
  - injection E as <-. exact G.
  - cbn [mfold] in E. apply bind_ok in E as (q1 & E1 & E).
    destruct (step_good D big o q q1 seen ops D0 B) as (seen' & G' & ->); auto.
    + intros ps H. apply Rg. destruct H as [(d & ->)|(t & ->)]; [left; exists d|right; exists t]; cbn; auto.
    + apply (IH q1); auto. intros ps H. apply Rg. destruct H as [(d & I)|(t & I)]; [left; exists d|right; exists t]; cbn; auto.
Qed.
