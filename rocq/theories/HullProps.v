(* C37: planar convex hulls. *)
From Verif Require Import Base BaseFacts PLCSpec Plane MeshEditorModel AreaProofs WithinSpec WithinProofs4 WithinProps HullModel HullSpec HullProofs HullProofs2 HullProofs3 HullProofs4 HullProofs5.
From Coq Require Import QArith ZArith Qabs Lia Lqa.
Local Open Scope Q_scope.

(* Points on the grid, not closer than two steps unless equal, and seen at an angle from the first
   one: whatever the set of points does with its broken order, the answer is the convex hull. *)
Theorem convex_hull_partial : forall pts low dx zs hs uniq, 0 < dx -> OnGrid pts low dx zs -> Apart zs -> SeenBent pts dx ->
  hpoints pts low dx = Ok hs -> set_fill hs [] uniq -> exists fs, convexHull_2d pts low dx uniq = Ok fs /\ IsHull pts fs.
Proof. intros. eapply hull_grid; eauto. Qed.
Print Assumptions convex_hull_partial.
(* and it is made of exactly the convex combinations of the points *)
Theorem hull_is_combinations : forall pts fs, IsHull pts fs -> exists vs ps, fs = polygon_facets vs /\ Chosen pts vs ps /\
  forall x, InPolygon x ps <-> Combination pts x.
Proof.
  intros pts fs (vs & ps & E & Ch & L & V & I). exists vs, ps. split; auto. split; auto. intros x. split; intros H.
  - apply (polygon_is_hull ps x V L) in H. assert (G : forall q ps', Combination ps' q -> forall qs, incl ps' qs -> Combination qs q); [|apply (G _ _ H); intros p Ip; destruct (Forall2_in_r _ _ _ _ Ch Ip) as (i & _ & Ei); eapply nth_error_In; eauto].
    apply comb_incl.
  - intros a b R. rewrite <- val_edge. apply (combination_ge _ pts x H). intros p Ip. rewrite val_edge. apply I; auto.
Qed.
Print Assumptions hull_is_combinations.

(* In general the polygon is the convex hull of the grid positions kept by the set, and every
   point is within one and a half steps of one of them. *)
Theorem convex_hull_rounded : forall pts low dx hs uniq, 0 < dx -> SeenBent pts dx -> (forall p, In p pts -> fst low <= fst p /\ snd low <= snd p) ->
  hpoints pts low dx = Ok hs -> set_fill hs [] uniq ->
  (Flat (map fst uniq) /\ convexHull_2d pts low dx uniq = Abort) \/
  exists vs zs, convexHull_2d pts low dx uniq = Ok (polygon_facets vs) /\ Chosen (map fst hs) vs zs /\ (3 <= length zs)%nat /\ StrictlyConvex (map (grid low dx) zs) /\
    (forall i p z, nth_error pts i = Some p -> nth_error (map fst hs) i = Some z -> Qabs (fst p - fst (grid low dx z)) <= dx / 2 /\ Qabs (snd p - snd (grid low dx z)) <= dx / 2) /\
    (forall p, In p pts -> exists q, InPolygon q (map (grid low dx) zs) /\ Qabs (fst p - fst q) <= (3 # 2) * dx /\ Qabs (snd p - snd q) <= (3 # 2) * dx).
Proof.
  intros pts low dx hs uniq D B Lo H U. assert (Dec : Flat (map fst uniq) \/ ~ Flat (map fst uniq)).
  { destruct (forallb (fun a => forallb (fun b => forallb (fun c => (zcross a b c =? 0)%Z) (map fst uniq)) (map fst uniq)) (map fst uniq)) eqn:E.
    - left. intros a b c A B' C. rewrite forallb_forall in E. apply E in A. rewrite forallb_forall in A. apply A in B'. rewrite forallb_forall in B'. apply B' in C. lia.
    - right. intros F. apply not_true_iff_false in E. apply E. apply forallb_forall. intros a A. apply forallb_forall. intros b B'. apply forallb_forall. intros c C. rewrite (F a b c A B' C). reflexivity. }
  destruct Dec as [F|NF]; [left; split; auto; eapply hull_flat; eauto|right]. destruct (hull_general _ _ _ _ _ D B H U NF) as (vs & zs & E & Ch & L & V & I). exists vs, zs. split; auto. split; auto. split; auto. split; auto. split.
  - intros i p z Ep Ez. destruct (hpoints_ok _ _ _ _ H) as [F _]. destruct (Forall2_nth _ _ _ _ _ F Ep) as (e & Ee & X & Y). rewrite nth_error_map, Ee in Ez. injection Ez as <-. destruct (Lo p) as [L1 L2]; [eapply nth_error_In; eauto|]. split; [apply (hcoord_near _ _ _ _ D L1 X)|apply (hcoord_near _ _ _ _ D L2 Y)].
  - intros p Ip. destruct (Lo p Ip) as [L1 L2]. destruct (kept_near _ _ _ _ _ _ D H U Ip L1 L2) as (e & Ie & Q). exists (grid low dx (fst e)). split; auto.
Qed.
Print Assumptions convex_hull_rounded.

(* Points on a line give one facet whose segment holds them all. *)
Theorem convex_hull_line : forall pts low dx zs hs uniq, 0 < dx -> pts <> [] -> OnGrid pts low dx zs -> Apart zs -> OnLine pts ->
  hpoints pts low dx = Ok hs -> set_fill hs [] uniq ->
  exists i j a b, convexHull_2d pts low dx uniq = Ok [[Z.of_nat i; Z.of_nat j]] /\ nth_error pts i = Some a /\ nth_error pts j = Some b /\
    forall p, In p pts -> exists t, 0 <= t <= 1 /\ fst p == fst (along a b t) /\ snd p == snd (along a b t).
Proof. intros. eapply hull_line; eauto. Qed.
Print Assumptions convex_hull_line.

(* the loop of insertions always has a result *)
Theorem set_fill_total : forall hs, exists uniq, set_fill hs [] uniq.
Proof. intros hs. exists (lin_fill hs []). apply lin_fill_ok. Qed.
Print Assumptions set_fill_total.

(* ---- a square with an inner point, a point on a side and a repeated corner ---- *)
Definition ex_zs : list (Z * Z) := [(0, 0); (16, 0); (16, 16); (8, 8); (0, 16); (8, 0); (16, 16)]%Z.
Definition on_grid (low : p2) (dx : Q) (zs : list (Z * Z)) : list p2 := map (grid low dx) zs.
Definition hashes (zs : list (Z * Z)) : list hpt := combine zs (seq 0 (length zs)).
Lemma on_grid_ok low dx zs : Forall (fun z => 0 <= fst z < 2 ^ 31 - 1 /\ 0 <= snd z < 2 ^ 31 - 1)%Z zs -> OnGrid (on_grid low dx zs) low dx zs.
Proof. induction 1 as [|z zs H _ IH]; constructor; [|exact IH]. cbn beta. repeat split; try reflexivity; apply H. Qed.
Definition apartb (zs : list (Z * Z)) : bool := forallb (fun u => forallb (fun v => ((fst u =? fst v) && (snd u =? snd v) || (1 <? Z.abs (fst u - fst v)) || (1 <? Z.abs (snd u - snd v)))%Z) zs) zs.
Lemma apartb_ok zs : apartb zs = true -> Apart zs.
Proof.
  intros H u v A B. unfold apartb in H. rewrite forallb_forall in H. apply H in A. rewrite forallb_forall in A. apply A in B. apply orb_true_iff in B as [B|B]; [|right; right; lia]. apply orb_true_iff in B as [B|B]; [|right; left; lia].
  left. destruct u, v. cbn in B. f_equal; lia.
Qed.
Ltac small := repeat constructor; cbn; lia.
Example hull_square : let pts := on_grid (0, 0) (1 # 8) ex_zs in
  OnGrid pts (0, 0) (1 # 8) ex_zs /\ Apart ex_zs /\ SeenBent pts (1 # 8) /\ hpoints pts (0, 0) (1 # 8) = Ok (hashes ex_zs) /\ set_fill (hashes ex_zs) [] (lin_fill (hashes ex_zs) []) /\
  convexHull_2d pts (0, 0) (1 # 8) (lin_fill (hashes ex_zs) []) = Ok [[0; 1]; [1; 2]; [2; 4]; [4; 0]]%Z.
Proof.
  cbv zeta. split; [apply on_grid_ok; small|]. split; [apply apartb_ok; reflexivity|]. split.
  - exists 1%nat, 4%nat. eexists _, _, _. split; [|split; [cbn; lia|split; [lia|split; [reflexivity|split; [reflexivity|split; [reflexivity|]]]]]].
    + eexists _, _. split; [reflexivity|]. split; [reflexivity|]. split; [vm_compute; discriminate|]. intros [|i] p L E; [injection E as <-; vm_compute; auto|lia].
    + unfold Bent. repeat split; vm_compute; discriminate.
  - split; [vm_compute; auto|]. split; [apply lin_fill_ok|]. vm_compute. auto.
Qed.
Example hull_of_line : let zs := [(8, 8); (2, 2); (0, 0); (12, 12); (2, 2)]%Z in let pts := on_grid (0, 0) (1 # 8) zs in
  OnGrid pts (0, 0) (1 # 8) zs /\ Apart zs /\ OnLine pts /\ convexHull_2d pts (0, 0) (1 # 8) (lin_fill (hashes zs) []) = Ok [[2; 3]]%Z.
Proof.
  cbv zeta. split; [apply on_grid_ok; small|]. split; [apply apartb_ok; reflexivity|]. split; [|vm_compute; auto].
  intros a b c A B C. repeat (destruct A as [<-|A]; [repeat (destruct B as [<-|B]; [repeat (destruct C as [<-|C]; [reflexivity|]); destruct C|]); destruct B|]). destruct A.
Qed.

(* ---- where the code fails ---- *)
Lemma polygon_len vs : length (polygon_facets vs) = length vs.
Proof. unfold polygon_facets. rewrite map_length. destruct vs as [|v vs]; auto. cbn [ring]. rewrite combine_length, app_length. cbn [length]. lia. Qed.
Lemma not_hull_short pts fs : (length fs < 3)%nat -> ~ IsHull pts fs.
Proof. intros L (vs & ps & -> & Ch & L3 & _). rewrite polygon_len in L. pose proof (Forall2_len _ _ _ Ch) as E. lia. Qed.
(* With a spacing of one, as VoroPP_2d.cc line 258 passes it, every three points are taken to be on
   a line unless they are at a right angle. *)
Theorem hull_spacing_refuted : exists pts low dx zs hs uniq fs, 0 < dx /\ dx == 1 /\ OnGrid pts low dx zs /\ Apart zs /\ ~ OnLine pts /\ hpoints pts low dx = Ok hs /\ set_fill hs [] uniq /\
  convexHull_2d pts low dx uniq = Ok fs /\ ~ IsHull pts fs.
Proof.
  set (zs := [(0, 0); (10, 0); (5, 5)]%Z). exists (on_grid (0, 0) 1 zs), (0, 0), 1, zs, (hashes zs), (lin_fill (hashes zs) []), [[0; 1]]%Z.
  split; [lra|]. split; [reflexivity|]. split; [apply on_grid_ok; small|]. split; [apply apartb_ok; reflexivity|]. split.
  - intros H. specialize (H (grid (0, 0) 1 (0, 0)%Z) (grid (0, 0) 1 (10, 0)%Z) (grid (0, 0) 1 (5, 5)%Z)). assert (K : orient (grid (0, 0) 1 (0, 0)%Z) (grid (0, 0) 1 (10, 0)%Z) (grid (0, 0) 1 (5, 5)%Z) == 0) by (apply H; cbn; auto). vm_compute in K. discriminate.
  - split; [vm_compute; auto|]. split; [apply lin_fill_ok|]. split; [vm_compute; auto|]. apply not_hull_short. cbn. lia.
Qed.
Print Assumptions hull_spacing_refuted.
(* Spacing and squared length are compared, so a figure smaller than the root of the spacing is
   taken to be a line however many steps it is wide. *)
Theorem hull_small_refuted : exists pts low dx zs hs uniq fs, 0 < dx /\ dx == 1 # 10000 /\ OnGrid pts low dx zs /\ Apart zs /\ ~ OnLine pts /\ hpoints pts low dx = Ok hs /\ set_fill hs [] uniq /\
  convexHull_2d pts low dx uniq = Ok fs /\ ~ IsHull pts fs.
Proof.
  set (zs := [(0, 0); (90, 0); (0, 90)]%Z). exists (on_grid (0, 0) (1 # 10000) zs), (0, 0), (1 # 10000), zs, (hashes zs), (lin_fill (hashes zs) []), [[0; 1]]%Z.
  split; [lra|]. split; [reflexivity|]. split; [apply on_grid_ok; small|]. split; [apply apartb_ok; reflexivity|]. split.
  - intros H. specialize (H (grid (0, 0) (1 # 10000) (0, 0)%Z) (grid (0, 0) (1 # 10000) (90, 0)%Z) (grid (0, 0) (1 # 10000) (0, 90)%Z)).
    assert (K : orient (grid (0, 0) (1 # 10000) (0, 0)%Z) (grid (0, 0) (1 # 10000) (90, 0)%Z) (grid (0, 0) (1 # 10000) (0, 90)%Z) == 0) by (apply H; cbn; auto). vm_compute in K. discriminate.
  - split; [vm_compute; auto|]. split; [apply lin_fill_ok|]. split; [vm_compute; auto|]. apply not_hull_short. cbn. lia.
Qed.
Print Assumptions hull_small_refuted.
(* Points next to each other on the grid: the later one is dropped although it is outside. *)
Theorem hull_neighbour_refuted : exists pts low dx zs hs uniq fs, 0 < dx /\ OnGrid pts low dx zs /\ SeenBent pts dx /\ hpoints pts low dx = Ok hs /\ set_fill hs [] uniq /\
  convexHull_2d pts low dx uniq = Ok fs /\ ~ IsHull pts fs.
Proof.
  set (zs := [(0, 1); (20, 1); (20, 20); (0, 20); (19, 0)]%Z). exists (on_grid (0, 0) (1 # 4) zs), (0, 0), (1 # 4), zs, (hashes zs), (lin_fill (hashes zs) []), [[0; 1]; [1; 2]; [2; 3]; [3; 0]]%Z.
  split; [lra|]. split; [apply on_grid_ok; small|]. split.
  - exists 1%nat, 3%nat. eexists _, _, _. split; [|split; [cbn; lia|split; [lia|split; [reflexivity|split; [reflexivity|split; [reflexivity|]]]]]].
    + eexists _, _. split; [reflexivity|]. split; [reflexivity|]. split; [vm_compute; discriminate|]. intros [|i] p L E; [injection E as <-; vm_compute; auto|lia].
    + unfold Bent. repeat split; vm_compute; discriminate.
  - split; [vm_compute; auto|]. split; [apply lin_fill_ok|]. split; [vm_compute; auto|]. intros (vs & ps & E & Ch & L & V & I).
    assert (K : In (0%nat, 1%nat) (ring vs)).
    { assert (M : In [0; 1]%Z (polygon_facets vs)) by (rewrite <- E; left; auto). apply in_map_iff in M as ([x y] & Q & R). cbn [fst snd] in Q. assert (x = 0%nat /\ y = 1%nat) as [-> ->] by (injection Q as Q1 Q2; lia). auto. }
    apply In_nth_error in K as [k K]. apply ring_nth in K as (K0 & K1 & Lk). cbn [fst snd] in *. destruct (Forall2_nth _ _ _ _ _ Ch K0) as (a & Ea & A). destruct (Forall2_nth _ _ _ _ _ Ch K1) as (b & Eb & B). cbn in A, B. injection A as <-. injection B as <-.
    pose proof (Forall2_len _ _ _ Ch) as Lp. rewrite Lp in *.
    assert (P : 0 <= orient (grid (0, 0) (1 # 4) (0, 1)%Z) (grid (0, 0) (1 # 4) (20, 1)%Z) (grid (0, 0) (1 # 4) (19, 0)%Z)).
    { apply (I (grid (0, 0) (1 # 4) (19, 0)%Z)); [cbn; auto 10|]. apply (nth_error_In _ k). apply ring_nth. cbn [fst snd]. auto. }
    vm_compute in P. apply P. auto.
Qed.
Print Assumptions hull_neighbour_refuted.
