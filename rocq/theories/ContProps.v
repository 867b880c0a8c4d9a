(* C111: planar containers of particles. *)
From Verif Require Import Base BaseFacts Plane MeshEditorModel VoroModel HullModel ContModel ContSpec ContProofs.
From Coq Require Import QArith Qabs Lqa Psatz Permutation.
Local Open Scope nat_scope.

(* step_mod and step_div are the remainder and quotient of dividing down, of negative numbers too. *)
Theorem steps_floor : forall a b, (0 < b)%Z -> exists r d, step_mod a b = r /\ step_div a b = d /\ (a = b * d + r)%Z /\ (0 <= r < b)%Z.
Proof.
  intros a b B. exists (a mod b)%Z, (a / b)%Z. rewrite step_mod_is, step_div_is by auto. split; auto. split; auto. split; [apply Z.div_mod; lia|apply Z.mod_pos_bound; auto].
Qed.
Print Assumptions steps_floor.

Definition SameBox (c c' : cont) : Prop :=
  c_ax c' = c_ax c /\ c_bx c' = c_bx c /\ c_ay c' = c_ay c /\ c_by c' = c_by c /\ c_nx c' = c_nx c /\ c_ny c' = c_ny c /\ c_xper c' = c_xper c /\ c_yper c' = c_yper c.

Lemma edge_low lo hi n i : (lo < hi)%Q -> 0 < n -> (lo <= edge lo hi n i)%Q.
Proof.
  intros L N. pose proof (box_pos lo hi n L N) as B. unfold edge. assert (0 <= inject_Z (Z.of_nat i))%Q by (change 0%Q with (inject_Z 0); rewrite <- Zle_Qle; lia). pose proof (Qmult_le_0_compat _ _ H (Qlt_le_weak _ _ B)). lra.
Qed.
Lemma edge_high lo hi n i : (lo < hi)%Q -> i < n -> (edge lo hi n (S i) <= hi)%Q.
Proof.
  intros L N. assert (N0 : 0 < n) by lia. pose proof (box_pos lo hi n L N0) as B. pose proof (box_n lo hi n N0) as E. unfold edge. set (box := ((hi - lo) / inject_Z (Z.of_nat n))%Q) in *.
  assert (H : (0 <= inject_Z (Z.of_nat n) - inject_Z (Z.of_nat (S i)))%Q) by (assert (inject_Z (Z.of_nat (S i)) <= inject_Z (Z.of_nat n))%Q by (rewrite <- Zle_Qle; lia); lra). pose proof (Qmult_le_0_compat _ _ H (Qlt_le_weak _ _ B)). clearbody box. lra.
Qed.

(* Putting a particle keeps it, in the block it is in, exactly if it is inside in every direction that
   is not periodic; everything kept before stays. *)
Theorem put_exact : forall c q, Made c -> InBlocks c -> Near c (snd q) ->
  exists c', put c q = Ok c' /\ SameBox c c' /\ Made c' /\ InBlocks c' /\
    ((~ CanTake c (snd q) /\ c' = c) \/ (CanTake c (snd q) /\ exists q', KeptAs c q q' /\ Permutation (concat (c_blocks c')) (concat (c_blocks c) ++ [q']))).
Proof.
  intros c [m [x y]] Md IB [R1 R2]. pose proof Md as (LX & LY & NX & NY & LB). cbn [fst snd] in *. unfold put, put_remap. cbn [fst snd].
  destruct (locate_ok _ _ _ LX NX (c_xper c) x R1) as [(E & P & F)|(i & x' & E & Hi & A1 & A2 & A3 & A4 & k & K1 & K2)]; rewrite E; cbn [bind].
  { exists c. split; auto. split; [repeat split|]. split; auto. split; auto. left. split; auto. intros [X _]. cbn [fst snd] in X. tauto. }
  destruct (locate_ok _ _ _ LY NY (c_yper c) y R2) as [(E2 & P2 & F2)|(j & y' & E2 & Hj & B1 & B2 & B3 & B4 & k2 & K3 & K4)]; rewrite E2; cbn [bind].
  { exists c. split; auto. split; [repeat split|]. split; auto. split; auto. left. split; auto. intros [_ X]. cbn [fst snd] in X. tauto. }
  assert (Lt : i + c_nx c * j < length (c_blocks c)) by (rewrite LB; nia). destruct (nth_error_ex _ _ Lt) as (b & Hb). rewrite (proj2 (get_ok _ _ _) Hb). cbn [bind]. rewrite set_lt by auto. cbn [bind].
  eexists. split; [reflexivity|]. split; [repeat split|]. split; [unfold Made; cbn; rewrite upd_length; auto|]. split.
  - intros i2 j2 b2 n2 p2 H1 H2 H3. cbn [c_ax c_bx c_ay c_by c_nx c_ny c_xper c_yper c_blocks] in *. destruct (Nat.eq_dec (i + c_nx c * j) (i2 + c_nx c * j2)) as [Eq|Ne].
    + assert (i2 = i /\ j2 = j) as [-> ->] by (assert (j2 = j) by nia; subst; split; lia). rewrite upd_same in H2 by auto. injection H2 as <-. apply in_app_or in H3. destruct H3 as [H3|[H3|[]]]; [apply (IB i j b n2 p2); auto|]. injection H3 as <- <-. cbn [fst snd]. split; auto. split; [intros Z0; apply A3; auto|]. split; auto. intros Z0; apply B3; auto.
    + rewrite upd_other in H2 by auto. apply (IB i2 j2 b2 n2 p2); auto.
  - right. split; [split; cbn [fst snd]; intros Z0; [apply A3|apply B3]; auto|]. exists (m, (x', y')). cbn [c_blocks]. split; [|apply concat_upd; auto]. split; auto. split; [exists k, k2; cbn [fst snd]; auto|]. cbn [fst snd]. split.
    + pose proof (edge_low _ _ _ i LX NX). pose proof (edge_low _ _ _ j LY NY). pose proof (edge_high _ _ _ i LX Hi). pose proof (edge_high _ _ _ j LY Hj). split; cbn [fst snd]; split; lra.
    + intros [I1 I2]. cbn [fst snd] in *. split; [apply A4|apply B4]; auto.
Qed.
Print Assumptions put_exact.

(* After any history of particles put into a new container the loop over it visits, each once, exactly
   those that can be taken, and total_particles is how many. *)
Theorem container_keeps : forall ax bx ay by_ nx ny xper yper qs, (ax < bx)%Q -> (ay < by_)%Q -> 0 < nx -> 0 < ny ->
  let c0 := new_cont ax bx ay by_ nx ny xper yper in Forall (fun q => Near c0 (snd q)) qs ->
  exists c l kept, mfold put qs c0 = Ok c /\ visit_all c = Ok l /\ total_particles c = length l /\ Taken c0 qs kept /\ Permutation l kept /\ InBlocks c.
Proof.
  intros ax bx ay by_ nx ny xper yper qs LX LY NX NY c0 Fq.
  assert (G : forall qs c, SameBox c0 c -> Made c -> InBlocks c -> Forall (fun q => Near c0 (snd q)) qs ->
    exists c' kept, mfold put qs c = Ok c' /\ Made c' /\ InBlocks c' /\ Taken c0 qs kept /\ Permutation (concat (c_blocks c')) (concat (c_blocks c) ++ kept)).
  { clear Fq qs. induction qs as [|q qs IH]; intros c SB Md IB Fq. { exists c, []. split; auto. split; auto. split; auto. split; [constructor|]. rewrite app_nil_r. auto. }
    inversion Fq as [|q0 qs0 N1 N2]; subst. assert (Nc : Near c (snd q)). { destruct SB as (S1 & S2 & S3 & S4 & S5 & S6 & _). unfold Near in *. rewrite S1, S2, S3, S4, S5, S6. auto. }
    destruct (put_exact c q Md IB Nc) as (c1 & E & SB1 & Md1 & IB1 & D). cbn [mfold]. rewrite E. cbn [bind].
    assert (SB2 : SameBox c0 c1). { destruct SB as (S1 & S2 & S3 & S4 & S5 & S6 & S7 & S8), SB1 as (T1 & T2 & T3 & T4 & T5 & T6 & T7 & T8). repeat split; congruence. }
    assert (CT : CanTake c (snd q) <-> CanTake c0 (snd q)). { destruct SB as (S1 & S2 & S3 & S4 & S5 & S6 & S7 & S8). unfold CanTake. rewrite S1, S2, S3, S4, S7, S8. tauto. }
    assert (KT : forall q', KeptAs c q q' -> KeptAs c0 q q'). { intros q'. destruct SB as (S1 & S2 & S3 & S4 & S5 & S6 & S7 & S8). unfold KeptAs, ImageOf, OnRect, Inside. rewrite S1, S2, S3, S4, S7, S8. auto. }
    destruct (IH c1 SB2 Md1 IB1 N2) as (c' & kept & E' & Md' & IB' & T & P). destruct D as [[D ->]|(D & q' & KA & P1)].
    - exists c', kept. split; auto. split; auto. split; auto. split; auto. apply T_out; auto. rewrite <- CT. auto.
    - exists c', (q' :: kept). split; auto. split; auto. split; auto. split; [apply T_in; auto; apply CT; auto|]. rewrite P, P1, <- app_assoc. auto. }
  destruct (G qs c0) as (c & kept & E & Md & IB & T & P); auto.
  - repeat split.
  - unfold Made, c0, new_cont; cbn. rewrite repeat_length. auto.
  - intros i j b n p _ H I. unfold c0, new_cont in H. cbn [c_blocks c_nx] in H. apply nth_error_In, repeat_spec in H. subst. destruct I.
  - destruct Md as (_ & _ & MX & MY & ML). exists c, (concat (c_blocks c)), kept. split; auto. split; [apply visit_all_is; auto|]. split; [apply total_is; auto|]. split; [exact T|]. split; [|exact IB]. rewrite P. unfold c0, new_cont. cbn [c_blocks].
    assert (Z0 : forall k, concat (repeat (@nil particle) k) = []) by (induction k; auto). rewrite Z0. auto.
Qed.
Print Assumptions container_keeps.

(* A particle at a whole number of blocks below a periodic container is not moved into the half-open
   rectangle but onto its upper side, although an image of it is inside. *)
Theorem periodic_image_refuted : exists c q c' p p', Made c /\ InBlocks c /\ Near c (snd q) /\ put c q = Ok c' /\ visit_all c' = Ok [(fst q, p)] /\ ~ Inside c p /\ ImageOf c (snd q) p' /\ Inside c p'.
Proof.
  exists (new_cont 0 1 0 1 4 1 true false), (7%Z, (-1, 1 # 2))%Q. eexists. eexists. exists (0, 1 # 2)%Q.
  split; [repeat split; cbn; lia|]. split; [intros i j b n p _ H I; unfold new_cont in H; cbn [c_blocks c_nx] in H; apply nth_error_In, repeat_spec in H; subst; destruct I|].
  split; [split; reflexivity|]. split; [vm_compute; reflexivity|]. split; [vm_compute; reflexivity|]. split; [intros [[_ X] _]; vm_compute in X; discriminate|]. split; [|repeat split; vm_compute; congruence].
  exists 1%Z, 0%Z. repeat split; auto. discriminate.
Qed.
Print Assumptions periodic_image_refuted.

(* Three particles put into a container of two by two blocks, one of them on its upper side. *)
Definition three : list particle := [(0%Z, (1 # 4, 3 # 4)); (1%Z, (1, 1 # 2)); (2%Z, (3 # 4, 1 # 4))]%Q.
Example three_near : Forall (fun q => Near (new_cont 0 1 0 1 2 2 false false) (snd q)) three.
Proof. repeat constructor. Qed.
Example three_kept : (do c <- mfold put three (new_cont 0 1 0 1 2 2 false false); do l <- visit_all c; Ok (total_particles c, map fst l)) = Ok (2, [2; 0]%Z).
Proof. vm_compute. reflexivity. Qed.
Example three_periodic : (do c <- mfold put three (new_cont 0 1 0 1 2 2 true true); do l <- visit_all c; Ok (total_particles c, map fst l)) = Ok (3, [2; 0; 1]%Z).
Proof. vm_compute. reflexivity. Qed.
