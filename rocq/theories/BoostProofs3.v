(* From the coordinates of the grid to those of the caller. *)
From Coq Require Import QArith Qabs Lqa.
From Verif Require Import Base BaseFacts QuantMeshModel PLCSpec BoxModel BoxProofs BoxProps Plane PlaneFacts WithinSpec TriModel TriSpec TriProofs6 TriProofs10 TriProofs11 BoostModel BoostSpec BoostProofs.
Local Open Scope nat_scope.

(* the place of a point given in grid coordinates *)
Definition gplace (f : frame) (x : p2) : p2 := (fx f + (fst x - inject_Z (cmin f)) * spacing f, fy f + (snd x - inject_Z (cmin f)) * spacing f)%Q.

Section Place.
  Context (f : frame) (Pf : proper f).
  Let s := spacing f.
  Lemma s_pos : (0 < s)%Q. Proof. apply spacing_pos. auto. Qed.
  Lemma s2_pos : (0 < s * s)%Q. Proof. pose proof s_pos. apply Qmult_lt_0_compat; auto. Qed.
  Lemma place_grid v : qsame (gplace f (grid_pt v)) (deq f v).
  Proof. unfold qsame, gplace, grid_pt, deq, dequantize1. cbn [fst snd]. unfold spacing, Zminus. rewrite !(inject_Z_plus _ (- cmin f)), !inject_Z_opp. split; ring. Qed.
  Lemma sqd_place x y : (sqd (gplace f x) (gplace f y) == (s * s) * sqd x y)%Q.
  Proof. unfold sqd, gplace, s. cbn [fst snd]. ring. Qed.
  Lemma orient_place x y z : (orient (gplace f x) (gplace f y) (gplace f z) == (s * s) * orient x y z)%Q.
  Proof. unfold orient, gplace, s. cbn [fst snd]. ring. Qed.
  Lemma sqd_deq x v : (sqd (gplace f x) (deq f v) == (s * s) * sqd x (grid_pt v))%Q.
  Proof. rewrite <- sqd_place. destruct (place_grid v) as [A B]. unfold sqd. rewrite A, B. reflexivity. Qed.
  Lemma sqd_same x y z : qsame x y -> (sqd x z == sqd y z)%Q.
  Proof using. clear. intros [A B]. unfold sqd. rewrite A, B. reflexivity. Qed.
  Lemma scale_le a b : ((s * s) * a <= (s * s) * b <-> a <= b)%Q.
  Proof. pose proof s2_pos as S. split; intros H; [|apply Qmult_le_l; auto]. apply Qmult_le_l in H; auto. Qed.
  Lemma nearest_place sites p x X : qsame (gplace f x) X -> (Nearest (map (deq f) sites) p X <-> Nearest (map grid_pt sites) p x).
  Proof.
    intros E. split.
    - intros (P & HP & H). rewrite nth_error_map in HP. destruct (nth_error sites p) as [v|] eqn:Ev; [|discriminate]. injection HP as <-. exists (grid_pt v). split; [rewrite nth_error_map, Ev; auto|].
      intros q I. apply in_map_iff in I as (w & <- & I). specialize (H (deq f w) (in_map _ _ _ I)). rewrite <- !(sqd_same _ _ _ E), !sqd_deq in H. apply (proj1 (scale_le _ _)) in H. auto.
    - intros (P & HP & H). rewrite nth_error_map in HP. destruct (nth_error sites p) as [v|] eqn:Ev; [|discriminate]. injection HP as <-. exists (deq f v). split; [rewrite nth_error_map, Ev; auto|].
      intros q I. apply in_map_iff in I as (w & <- & I). specialize (H (grid_pt w) (in_map _ _ _ I)). rewrite <- !(sqd_same _ _ _ E), !sqd_deq. apply (proj2 (scale_le _ _)). auto.
  Qed.
  Lemma unplace X : exists x, qsame (gplace f x) X.
  Proof.
    pose proof s_pos as S. exists (((fst X - fx f) / s + inject_Z (cmin f)), ((snd X - fy f) / s + inject_Z (cmin f)))%Q. unfold qsame, gplace. cbn [fst snd]. fold s. split; field; lra.
  Qed.
  Lemma sum_affine (g : p2 -> Q) a k : forall ws xs, length ws = length xs ->
    (sumf (fun e : Q * p2 => fst e * (a + g (snd e) * k)) (combine ws xs) == a * sumf (fun w => w) ws + k * sumf (fun e : Q * p2 => fst e * g (snd e)) (combine ws xs))%Q.
  Proof using.
    clear. induction ws as [|w ws IH]; intros [|x xs] L; try discriminate; [cbn; ring|]. cbn [combine]. rewrite !sumf_cons, IH by (cbn in L; lia). cbn [fst snd]. ring.
  Qed.
  Lemma combine_mapped (g : p2 -> p2) : forall (ws : list Q) xs, combine ws (map g xs) = map (fun e => (fst e, g (snd e))) (combine ws xs).
  Proof using. clear. induction ws as [|w ws IH]; intros [|x xs]; try reflexivity. cbn. f_equal. apply IH. Qed.
  Lemma combination_place xs x X : qsame (gplace f x) X -> (Combination (map (gplace f) xs) X <-> Combination xs x).
  Proof.
    intros [E1 E2]. pose proof s_pos as S. unfold gplace in E1, E2. cbn [fst snd] in E1, E2. fold s in E1, E2.
    assert (K : forall ws, length ws = length xs -> (sumf (fun w => w) ws == 1)%Q ->
      (sumf (fun e => fst e * fst (snd e)) (combine ws (map (gplace f) xs)) == fx f + (sumf (fun e => fst e * fst (snd e)) (combine ws xs) - inject_Z (cmin f)) * s /\
       sumf (fun e => fst e * snd (snd e)) (combine ws (map (gplace f) xs)) == fy f + (sumf (fun e => fst e * snd (snd e)) (combine ws xs) - inject_Z (cmin f)) * s)%Q).
    { intros ws L W. rewrite combine_mapped, !sumf_map. cbn [fst snd gplace]. fold s.
      pose proof (sum_affine fst (fx f - inject_Z (cmin f) * s) s ws xs L) as A. pose proof (sum_affine snd (fy f - inject_Z (cmin f) * s) s ws xs L) as B. rewrite W in A, B.
      split; [rewrite (sumf_ext _ (fun e : Q * p2 => fst e * (fx f - inject_Z (cmin f) * s + fst (snd e) * s))%Q); [rewrite A; ring|intros; ring]|
              rewrite (sumf_ext _ (fun e : Q * p2 => fst e * (fy f - inject_Z (cmin f) * s + snd (snd e) * s))%Q); [rewrite B; ring|intros; ring]]. }
    assert (Cancel : forall a b c d, (a + (b - c) * s == a + (d - c) * s -> b == d)%Q).
    { intros a b c d H. assert (H' : ((b - d) * s == 0)%Q) by lra. apply Qmult_integral in H'. destruct H'; lra. }
    split; intros (ws & L & Pos & W & H1 & H2); rewrite ?map_length in L; destruct (K ws L W) as [K1 K2]; exists ws; rewrite ?map_length; (split; [auto|split; [auto|split; [auto|]]]).
    - rewrite K1, <- E1 in H1. rewrite K2, <- E2 in H2. split; eapply Cancel; eauto.
    - rewrite K1, K2, <- E1, <- E2, H1, H2. split; reflexivity.
  Qed.
  Lemma convex_place xs : StrictlyConvex xs -> StrictlyConvex (map (gplace f) xs).
  Proof.
    intros C i j k a b c O Ha Hb Hc. rewrite nth_error_map in Ha, Hb, Hc. destruct (nth_error xs i) as [a'|] eqn:A; [|discriminate]. destruct (nth_error xs j) as [b'|] eqn:B; [|discriminate].
    destruct (nth_error xs k) as [c'|] eqn:D; [|discriminate]. injection Ha as <-. injection Hb as <-. injection Hc as <-. rewrite orient_place. apply Qmult_lt_0_compat; [apply s2_pos|]. apply (C i j k); auto.
  Qed.
  Lemma near_place x : Near1 f (tp x) (gplace f x).
  Proof.
    pose proof s_pos as S. destruct (place_grid (tp x)) as [A B]. unfold Near1. rewrite <- A, <- B. unfold gplace, grid_pt, tp. cbn [fst snd]. fold s.
    assert (K : forall o q, (Qabs (o + (inject_Z (trunc q) - inject_Z (cmin f)) * s - (o + (q - inject_Z (cmin f)) * s)) < s)%Q).
    { intros o q. pose proof (trunc_near q) as T. assert (E : (o + (inject_Z (trunc q) - inject_Z (cmin f)) * s - (o + (q - inject_Z (cmin f)) * s) == (inject_Z (trunc q) - q) * s)%Q) by ring.
      rewrite E. apply Qabs_Qlt_condition in T. apply Qabs_Qlt_condition. set (t := (inject_Z (trunc q) - q)%Q) in *. clearbody t. assert (0 < (1 - t) * s)%Q by (apply Qmult_lt_0_compat; lra). assert (0 < (1 + t) * s)%Q by (apply Qmult_lt_0_compat; lra). lra. }
    split; apply K.
  Qed.
  (* inside the frame, the grid coordinates are in range *)
  Lemma frame_range x X : qsame (gplace f x) X -> in_frame f X ->
    (inject_Z (cmin f) <= fst x <= inject_Z (cmax f))%Q /\ (inject_Z (cmin f) <= snd x <= inject_Z (cmax f))%Q.
  Proof.
    intros [E1 E2] [H1 H2]. pose proof s_pos as S. pose proof (spacing_total f Pf) as T. fold s in T. unfold Zminus in T. rewrite inject_Z_plus, inject_Z_opp in T. unfold gplace in E1, E2. cbn [fst snd] in E1, E2. fold s in E1, E2.
    assert (K : forall o q, (o <= o + (q - inject_Z (cmin f)) * s <= o + flen f)%Q -> (inject_Z (cmin f) <= q <= inject_Z (cmax f))%Q).
    { intros o q [A B]. rewrite <- T in B. split.
      - assert (C : (0 * s <= (q - inject_Z (cmin f)) * s)%Q) by lra. apply Qmult_le_r in C; auto. lra.
      - assert (C : (q * s <= inject_Z (cmax f) * s)%Q) by lra. apply Qmult_le_r in C; auto. }
    split; [apply (K (fx f)); lra|apply (K (fy f)); lra].
  Qed.
End Place.

Section StandardFrame.
  Context (big : Q) (bnd points : list Q) (xl yl xh yh : Q) (f : frame) (gq uq : list (pt * nat)).
  Context (Box : local_box 2 big bnd = Ok ([xl; yl], [xh; yh])) (Size : (xl < xh \/ yl < yh)%Q) (Ff : boundary_frame big bnd = Ok f)
    (Co : construct f points = Ok (gq, uq))
    (Inside : forall i x y, i < length gq -> vertex 2 points i = [x; y] -> (xl <= x <= xh)%Q /\ (yl <= y <= yh)%Q).
  Let gens := map fst gq.
  Let guards := map fst uq.

  Lemma in_frame_near p X : p < length gens -> Nearest (map (deq f) (gens ++ guards)) p X -> in_frame f X.
  Proof.
    intros Lp (P & HP & N). pose proof (f_is big bnd points xl yl xh yh f gq uq Box Ff Co) as Fi.
    destruct (gen_at f gq uq p P Lp HP) as (g & Hg & ->). destruct (gens_middle big bnd points xl yl xh yh f gq uq Box Size Ff Co Inside p g Hg) as (_ & Gx & Gy).
    pose proof (L_pos xl yl xh yh Size) as Lq. rewrite Fi. rewrite Fi in Gx, Gy, N. apply (center_inside _ _ _ Lq (length points / 2) (deq (around_box xl yl (qmax (xh - xl) (yh - yl))) g)); auto.
    intros u Iu. apply N. rewrite map_app. apply in_or_app. right. apply in_map. unfold guards. rewrite (guards_is points f gq uq Co). auto.
  Qed.
  Lemma grid_range p x : p < length gq -> Nearest (map grid_pt (map fst (gq ++ uq))) p x ->
    (inject_Z coordMin <= fst x <= inject_Z coordMax)%Q /\ (inject_Z coordMin <= snd x <= inject_Z coordMax)%Q.
  Proof.
    intros Lp N. pose proof (f_full big bnd points xl yl xh yh f gq uq Box Size Ff Co) as Fu. pose proof (full_proper f Fu) as Pf. pose proof Fu as (F1 & F2 & _). rewrite <- F1, <- F2.
    assert (S : qsame (gplace f x) (gplace f x)) by (split; reflexivity). apply (frame_range f Pf x _ S). apply (in_frame_near p); [unfold gens; rewrite map_length; auto|].
    apply (nearest_place f Pf _ _ _ _ S). unfold gens, guards. rewrite <- map_app. auto.
  Qed.
  Lemma gen_index i g k : nth_error gq i = Some (g, k) -> k = i.
  Proof.
    intros H. destruct (construct_correct f points gq uq Co) as (Len & C & _). pose proof (nth_error_lt _ _ _ H) as Li.
    pose proof (PLCProofs.vertex_length 2 points i ltac:(lia)) as VL. destruct (vertex 2 points i) as [|x [|y [|]]] eqn:V; try discriminate. rewrite (C i x y Li V) in H. congruence.
  Qed.
  Lemma guard_index u k : In (u, k) uq -> length gq <= k.
  Proof.
    intros I. destruct (construct_correct f points gq uq Co) as (_ & _ & M & _). apply (in_map snd) in I. rewrite M in I. apply in_seq in I. apply (proj1 I).
  Qed.
End StandardFrame.
