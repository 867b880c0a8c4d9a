(* The parts of the serial distributed tessellator are accepted; runs computed. *)
From Verif Require Import Base BaseFacts StdAlg SerializeModel SerializeSpec MeshModel MeshSpec MeshProofs2 CollModel SerialDistSpec SerialDistProofs SerialDistProofs2 SerialDistProofs3 HullProofs3 CheckModel CheckSpec CheckProofs.
From Coq Require Import Sorted Lia Permutation.

Lemma times_le1 {A} (K : A -> list Z) l c : NoDup l -> (forall x y, In x l -> In y l -> K x = K y -> x = y) -> times c (map K l) <= 1.
Proof. intros N I. unfold times. apply NoDup_count_occ. apply nodup_map_in; auto. Qed.

Section Serial.
  Context {V : Type} (D n : nat) (m : mesh V) (owns : nat -> nat -> Prop) (out : nat -> mesh V) (kC kF kN : nat -> list nat) (t : ty) (key : denote t -> list Z) (H : nat -> denote t).
  Hypothesis Dom : forall r, r < n -> Domain D n m owns r (out r) (kC r) (kF r) (kN r).
  Hypothesis Inj : forall x y r s, r < n -> s < n -> RankNode m owns r x -> RankNode m owns s y -> key (H x) = key (H y) -> x = y.
  Local Notation L := (fun r => mkLocal (t := t) (map H (kN r)) (neighborDomains (out r)) (sharedNodes (out r))).

  Lemma held q x : q < n -> In x (kN q) <-> RankNode m owns q x.
  Proof.
    intros Lq. destruct (dm_part _ _ _ _ _ _ _ _ _ (Dom q Lq)) as (nd & sn & sf & P). rewrite (po_N _ _ _ _ _ _ P x). split.
    - intros (f & ns & If & En & Ix). destruct (proj1 (po_F _ _ _ _ _ _ P f) If) as (i & c & z & Ii & Ec & Iz & Ef). subst f. exists i. split; [apply (dm_cells _ _ _ _ _ _ _ _ _ (Dom q Lq)); auto|]. exists c, z, ns. auto.
    - intros (i & O & c & z & ns & Ec & Iz & En & Ix). exists (pid z), ns. split; [|auto]. apply (po_F _ _ _ _ _ _ P). exists i, c, z. split; [apply (dm_cells _ _ _ _ _ _ _ _ _ (Dom q Lq)); auto|]. auto.
  Qed.
  Lemma pos_in q c : q < n -> In c (positions key (L q)) <-> exists x, RankNode m owns q x /\ key (H x) = c.
  Proof.
    intros Lq. unfold positions. cbn. rewrite map_map, in_map_iff. split; intros (x & A & B); exists x; [split; auto; apply (held q x Lq); auto|split; auto; apply (held q x Lq); auto].
  Qed.
  Lemma listed r s ks : r < n -> ListsFor key (L r) s ks -> exists xs, StronglySorted lt xs /\ (forall x, In x xs <-> SharedNode m owns r s x) /\ ks = map (fun x => key (H x)) xs.
  Proof.
    intros Lr (i & l & hs & E & El & F & ->). cbn in *. destruct (dm_sn _ _ _ _ _ _ _ _ _ (Dom r Lr) i s l E El) as (xs & St & Ss & HX). exists xs. split; auto. split; auto.
    rewrite <- map_map. f_equal. clear - F St. unfold Stand in St. revert xs St. induction F as [|j h l hs Hj F IH]; intros xs St; inversion St as [|? x ? xs' Ex St']; subst; auto. cbn. f_equal; auto. rewrite nth_error_map, Ex in Hj. cbn in Hj. congruence.
  Qed.
  Lemma serial_good : Good key n L.
  Proof.
    constructor.
    - intros r s Lr Ls I. cbn in *. apply (dm_nd _ _ _ _ _ _ _ _ _ (Dom r Lr)) in I as (_ & N & x & X1 & X2). apply (dm_nd _ _ _ _ _ _ _ _ _ (Dom s Ls)). split; auto. split; auto. exists x. split; auto.
    - intros r s ks ks' Lr Ls K K'. destruct (listed r s ks Lr K) as (xs & S1 & I1 & ->). destruct (listed s r ks' Ls K') as (ys & S2 & I2 & ->). f_equal. apply sorted_lt_ext; auto. intros x. rewrite I1, I2. unfold SharedNode. tauto.
    - intros r s Lr Ls N. cbn [nbrs]. rewrite (dm_nd _ _ _ _ _ _ _ _ _ (Dom r Lr)). split.
      + intros (_ & _ & x & X1 & X2). exists (key (H x)). split; apply pos_in; eauto.
      + intros (c & C1 & C2). apply pos_in in C1 as (x & X1 & E1); auto. apply pos_in in C2 as (y & X2 & E2); auto. assert (x = y) by (apply (Inj x y r s); auto; congruence). subst y. split; auto. split; auto. exists x. split; auto.
    - intros r s ks c Lr Ls N K. destruct (listed r s ks Lr K) as (xs & S1 & I1 & ->).
      assert (T : forall q, q < n -> times c (positions key (L q)) <= 1).
      { intros q Lq. unfold positions. cbn. rewrite map_map. apply times_le1. { destruct (dm_part _ _ _ _ _ _ _ _ _ (Dom q Lq)) as (nd & sn & sf & P). apply sorted_lt_nodup, (po_sortedN _ _ _ _ _ _ P). } intros x y Ix Iy E. apply (Inj x y q q); auto; apply held; auto. }
      assert (T0 : times c (map (fun x => key (H x)) xs) <= 1). { apply times_le1; [apply sorted_lt_nodup; auto|]. intros x y Ix Iy E. apply I1 in Ix as [Ix _]. apply I1 in Iy as [Iy _]. apply (Inj x y r r); auto. }
      assert (Q : 0 < times c (map (fun x => key (H x)) xs) <-> 0 < times c (positions key (L r)) /\ 0 < times c (positions key (L s))).
      { rewrite <- !times_in. rewrite !pos_in by auto. rewrite in_map_iff. split.
        - intros (x & E & Ix). apply I1 in Ix as [X1 X2]. eauto 6.
        - intros [(x & X1 & E1) (y & X2 & E2)]. assert (x = y) by (apply (Inj x y r s); auto; congruence). subst y. exists x. split; auto. apply I1. split; auto. }
      pose proof (T r Lr) as Tr. pose proof (T s Ls) as Ts. cbn beta in *. lia.
  Qed.
End Serial.

(* an evaluator for collective programs, for examples *)
Inductive outcome (A : Type) := More | Stuck | Done (l : list (res A)).
Arguments More {A}. Arguments Stuck {A}. Arguments Done {A}.
Fixpoint all_some {A B} (f : A -> option B) (l : list A) : option (list B) :=
  match l with [] => Some [] | a :: t => match f a, all_some f t with Some b, Some u => Some (b :: u) | _, _ => None end end.
Fixpoint runs {A} (fuel : nat) (ps : list (cprog A)) : outcome A :=
  match fuel with
  | 0 => More
  | S f =>
      match ps with
      | [] => Done []
      | CRet _ :: _ => match all_some (fun p => match p with CRet a => Some a | _ => None end) ps with Some l => Done l | None => Stuck end
      | CBcast root cnt _ _ :: _ =>
          match all_some (fun p => match p with CBcast r c v k => if (r =? root) && (c =? cnt) then Some (v, k) else None | _ => None end) ps with
          | Some l => match nth_error l root with Some (v, _) => if length v =? cnt then runs f (map (fun vk => snd vk v) l) else Stuck | None => Stuck end
          | None => Stuck end
      | CMin _ _ :: _ =>
          match all_some (fun p => match p with CMin v k => Some (v, k) | _ => None end) ps with
          | Some ((v, k) :: l) => let x := fold_left (fun a vk => Nat.min a (fst vk)) l v in runs f (map (fun vk => snd vk x) ((v, k) :: l))
          | _ => Stuck end
      end
  end.

Lemma all_some_map {A B C} (f : A -> option B) (g : C -> A) (h : C -> B) l : (forall x, In x l -> f (g x) = Some (h x)) -> all_some f (map g l) = Some (map h l).
Proof. induction l as [|a l IH]; intros H; auto. cbn. rewrite (H a) by (left; auto). rewrite IH; auto. intros x I. apply H. right. auto. Qed.
Lemma fold_min {A} (f : A -> nat) l a : let x := fold_left (fun a v => Nat.min a (f v)) l a in (x = a \/ exists v, In v l /\ f v = x) /\ x <= a /\ forall v, In v l -> x <= f v.
Proof.
  cbv zeta. revert a. induction l as [|b l IH]; intros a; cbn; [split; auto; split; auto; intros v []|]. destruct (IH (Nat.min a (f b))) as (I & Q & R). split; [|split; [lia|intros v [<-|Iv]; [lia|auto]]].
  destruct I as [->|(v & Iv & Ev)]; [|right; eauto]. destruct (Nat.min_dec a (f b)) as [->| ->]; eauto.
Qed.
Lemma runs_sound {A} n (ps : nat -> cprog A) a : Together n ps a -> forall fuel, runs fuel (map ps (seq 0 n)) = More \/ runs fuel (map ps (seq 0 n)) = Done (map a (seq 0 n)).
Proof.
  assert (In' : forall r n, In r (seq 0 n) -> r < n) by (intros r k I; apply in_seq in I; lia).
  induction 1 as [ps a H|ps root cnt v k a Lr H Lv T IH|ps v k a x H Ex Le T IH]; intros [|fuel]; auto.
  - destruct n as [|n]; [auto|]. right. set (l := seq 0 (S n)) in *. assert (E : exists y q, map ps l = CRet y :: q). { unfold l. cbn. rewrite (H 0) by lia. eauto. } destruct E as (y & q & E). cbn [runs]. rewrite E. rewrite <- E. rewrite (all_some_map _ ps a); [auto|]. intros r I. rewrite (H r); auto.
  - destruct n as [|n]; [lia|]. set (l := seq 0 (S n)) in *. assert (E : exists y z q, map ps l = CBcast root cnt y z :: q). { unfold l. cbn. rewrite (H 0) by lia. eauto. } destruct E as (y & z & q & E). cbn [runs]. rewrite E. rewrite <- E. rewrite (all_some_map _ ps (fun r => (v r, k r))).
    + rewrite nth_error_map. unfold l at 1 3. rewrite (nth_error_nth' (seq 0 (S n)) 0) by (rewrite seq_length; auto). rewrite seq_nth by auto. cbn [Nat.add option_map]. rewrite Lv, Nat.eqb_refl, map_map. cbn [snd]. apply IH.
    + intros r I. rewrite (H r) by auto. rewrite !Nat.eqb_refl. auto.
  - destruct n as [|n]; [destruct Ex as (r & ? & _); lia|]. set (l := seq 0 (S n)) in *. assert (E : exists y z q, map ps l = CMin y z :: q). { unfold l. cbn. rewrite (H 0) by lia. eauto. } destruct E as (y & z & q & E). cbn [runs]. rewrite E. rewrite <- E. rewrite (all_some_map _ ps (fun r => (v r, k r))) by (intros r I; rewrite (H r); auto).
    change (map (fun r => (v r, k r)) l) with ((v 0, k 0) :: map (fun r => (v r, k r)) (seq 1 n)). cbv beta iota zeta. change (fold_left (fun a0 vk => Nat.min a0 (fst vk))) with (fold_left (fun a0 (vk : nat * (nat -> cprog A)) => Nat.min a0 (fst vk))).
    destruct (fold_min (fun vk : nat * (nat -> cprog A) => fst vk) (map (fun r => (v r, k r)) (seq 1 n)) (v 0)) as (M1 & M2 & M3). set (X := fold_left _ _ _) in *.
    assert (EX : X = x).
    { destruct Ex as (r & Lr & <-). apply Nat.le_antisymm.
      - destruct r as [|r]; [auto|]. apply (M3 (v (S r), k (S r))). apply in_map_iff. exists (S r). split; auto. apply in_seq. lia.
      - destruct M1 as [->|(vk & I & <-)]; [apply Le; lia|]. apply in_map_iff in I as (s & <- & I). apply in_seq in I. apply Le. lia. }
    rewrite EX. change ((v 0, k 0) :: map (fun r => (v r, k r)) (seq 1 n)) with (map (fun r => (v r, k r)) l). rewrite map_map. apply IH.
Qed.
