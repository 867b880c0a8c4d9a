(* Proofs about simplifyPLCfacets: the whole routine. *)
From Verif Require Import Base BaseFacts Rank KeyMapModel FaceSortModel FaceSortSpec Plane PLCSpec WithinModel WithinSpec HashModel HashSpec HullModel HullSpec HullProofs4 HullProofs5 Hull3Proofs6
  SimplifyModel SimplifySpec SimplifyProofs SimplifyProofs2 SimplifyProofs3 SimplifyProofs4.
From Coq Require Import QArith Lqa Permutation Sorted.
Local Open Scope nat_scope.

Definition rot {A} (l : list A) : list A := match l with [] => [] | a :: t => t ++ [a] end.
Lemma ring_rot {A} (l : list A) : Permutation (ring l) (ring (rot l)).
Proof.
  destruct l as [|a [|b t]]; [reflexivity|reflexivity|].
  assert (E : ring (rot (a :: b :: t)) = combine (b :: t) (t ++ [a]) ++ [(a, b)]).
  { unfold rot, ring. cbn [app]. change (b :: t ++ [a]) with ((b :: t) ++ [a]). rewrite combine_app' by (rewrite app_length; cbn [length]; lia). reflexivity. }
  rewrite E. unfold ring. cbn [app combine]. apply Permutation_cons_append.
Qed.
Lemma rot_perm {A} (l : list A) : Permutation l (rot l).
Proof. destruct l; [reflexivity|]. apply Permutation_cons_append. Qed.
Lemma boundary_rot n same facets vs : Boundary n same facets vs -> Boundary n same facets (rot vs).
Proof.
  intros [A1 A2 A3 A4 (fs & P & F)]. pose proof (rot_perm vs) as R. constructor.
  - rewrite <- (Permutation_length R). auto.
  - eapply Permutation_NoDup; eauto.
  - intros v I. apply A3. eapply Permutation_in; [symmetry; exact R|auto].
  - intros v j I. apply A4. eapply Permutation_in; [symmetry; exact R|auto].
  - assert (F' : Forall2 (fun e f => exists a b, f = [a; b] /\ a < n /\ b < n /\ ((same a (fst e) /\ same b (snd e)) \/ (same a (snd e) /\ same b (fst e)))) (ring vs) fs) by (clear - F; induction F; constructor; auto).
    destruct (Permutation_Forall2 (ring_rot vs) F') as (fs' & P' & F2). exists fs'. split; [rewrite <- P'; auto|]. clear - F2. induction F2; constructor; auto.
Qed.
Lemma map_rot {A B} (f : A -> B) l : map f (rot l) = rot (map f l).
Proof. destruct l; [reflexivity|]. cbn. rewrite map_app. auto. Qed.
Lemma rot_nth' {A} (l : list A) i : i < length l -> nth_error (rot l) i = nth_error l ((i + 1) mod length l).
Proof. destruct l as [|a t]; [cbn; lia|]. apply rot_nth. Qed.
Fixpoint rots {A} (s : nat) (l : list A) : list A := match s with O => l | S s => rot (rots s l) end.
Lemma rots_len {A} (l : list A) s : length (rots s l) = length l.
Proof. induction s as [|s IH]; auto. cbn [rots]. rewrite <- (Permutation_length (rot_perm (rots s l))). auto. Qed.
Lemma rots_nth {A} (l : list A) s : forall i, i < length l -> nth_error (rots s l) i = nth_error l ((s + i) mod length l).
Proof.
  induction s as [|s IH]; intros i L; [cbn [rots plus]; rewrite Nat.mod_small; auto|]. cbn [rots]. rewrite rot_nth' by (rewrite rots_len; auto). rewrite rots_len.
  rewrite IH by (apply Nat.mod_upper_bound; lia). f_equal. rewrite Nat.add_mod_idemp_r by lia. f_equal. lia.
Qed.
Lemma map_rots {A B} (f : A -> B) l s : map f (rots s l) = rots s (map f l).
Proof. induction s as [|s IH]; auto. cbn [rots]. rewrite map_rot, IH. auto. Qed.
Lemma boundary_rots n same facets vs s : Boundary n same facets vs -> Boundary n same facets (rots s vs).
Proof. intros B. induction s as [|s IH]; auto. cbn [rots]. apply boundary_rot. auto. Qed.
(* two ways around the same boundary have the same edges *)
Lemma boundary_adj n (same : nat -> nat -> Prop) facets vs us a b :
  (forall i j, i < n -> j < n -> same i j -> same j i) -> (forall i j k, i < n -> j < n -> k < n -> same i j -> same j k -> same i k) ->
  Boundary n same facets vs -> Boundary n same facets us -> Adjacent us a b -> Adjacent vs a b.
Proof.
  intros Sy Tr Bv Bu Ad.
  assert (Eq : forall x (y : nat) v u, In v vs -> In u us -> x < n -> same x v -> same x u -> v = u).
  { intros x _ v u V U X S1 S2. pose proof (bd_range _ _ _ _ Bv v V) as L1. pose proof (bd_range _ _ _ _ Bu u U) as L2.
    assert (S3 : same v u) by (apply (Tr v x u); auto). destruct (Nat.lt_trichotomy v u) as [L|[L|L]]; auto; exfalso.
    - apply (bd_first _ _ _ _ Bu u v U L). auto.
    - apply (bd_first _ _ _ _ Bv v u V L). auto. }
  assert (G : forall a b, In (a, b) (ring us) -> Adjacent vs a b); [|destruct Ad as [I|I]; [auto|apply G in I; destruct I; [right|left]; auto]].
  clear Ad a b. intros a b I. assert (Iab : In a us /\ In b us) by (apply ring_in_nth in I; destruct I as (i & E1 & E2); split; eapply nth_error_In; eauto).
  destruct (bd_facets _ _ _ _ Bu) as (fs & P & F). destruct (bd_facets _ _ _ _ Bv) as (fs' & P' & F').
  destruct (Forall2_in_r _ _ _ _ F I) as (f & If & x & y & -> & Lx & Ly & H).
  apply (Permutation_in _ P) in If. apply (Permutation_in _ (Permutation_sym P')) in If. destruct (Forall2_in_l _ _ _ _ F' If) as ((c & d) & Ie & x' & y' & E & _1 & _2 & H'). injection E as <- <-.
  assert (Icd : In c vs /\ In d vs) by (apply ring_in_nth in Ie; destruct Ie as (i & E1 & E2); split; eapply nth_error_In; eauto).
  cbn [fst snd] in *. destruct Iab as [Ia Ib], Icd as [Ic Id]. destruct H as [[S1 S2]|[S1 S2]]; destruct H' as [[T1 T2]|[T1 T2]].
  - left. rewrite <- (Eq x 0 c a), <- (Eq y 0 d b); auto.
  - right. rewrite <- (Eq x 0 d a), <- (Eq y 0 c b); auto.
  - right. rewrite <- (Eq x 0 c b), <- (Eq y 0 d a); auto.
  - left. rewrite <- (Eq x 0 d b), <- (Eq y 0 c a); auto.
Qed.
