(* Proofs about simplifying the surface of a solid: whenever the edges are put in order without a
   loose end, the order uses every edge once and goes round. *)
From Coq Require Import Permutation.
From Verif Require Import Base BaseFacts KeyMapModel FaceSortModel FaceSortSpec FaceSortProofs FaceSortProofs2.

Lemma walk_sound {E} elt (ends : E -> Z * Z) (irr : forall a, elt a a = false) (tra : forall a b c, elt a b = true -> elt b c = true -> elt a c = true)
  (tot : forall a b, elt a b = false -> elt b a = false -> a = b) n : forall m live a acc r,
  Inv elt ends m live -> NoDup acc -> (forall x, live x -> ~ In x acc) -> walk elt ends n m a acc = Ok r ->
  NoDup r /\ length r = length acc + n /\ forall x, In x r -> In x acc \/ live x.
Proof.
  induction n as [|n IH]; intros m live a acc r I N F H; cbn [walk] in H; [inversion H; subst; repeat split; auto; lia|].
  destruct (at_node m a) as [|e t] eqn:A; [discriminate|].
  assert (Le : live e). { apply (proj2 (I a) e). rewrite A. left; auto. }
  pose proof (del_inv elt ends irr tot m live e I) as D.
  edestruct IH as (N' & L & S); [exact D| | |exact H|].
  - apply (Permutation_NoDup (Permutation_cons_append acc e)). constructor; auto.
  - intros x [Lx Nx] X. apply in_app_or in X. destruct X as [X|[X|[]]]; [apply (F x); auto|congruence].
  - split; auto. rewrite app_length in L. cbn in L. split; [lia|]. intros x X. destruct (S x X) as [X'|[X' _]]; auto. apply in_app_or in X'. destruct X' as [X'|[<-|[]]]; auto.
Qed.
Lemma orient_pid edges l : forall a r, orient edges a l = Ok r -> map pid r = l.
Proof.
  induction l as [|e l IH]; intros a r H; cbn [orient] in H; [inversion H; auto|]. apply bind_ok in H as (u & _ & H).
  destruct (fst (edge_at edges e) =? a)%Z; apply bind_ok in H as (r' & O & H); inversion H; subst r; cbn [map]; rewrite ?pid_of_nat, ?pid_lnot_of_nat, (IH _ _ O); auto.
Qed.
Lemma hang_len edges l : forall r0 m0 h0 r m h, mfold (hloop edges) l (r0, m0, h0) = Ok (r, m, h) -> length r0 = length h0 ->
  length r = length h /\ (h = [] -> h0 = [] -> m = m0).
Proof.
  induction l as [|i l IH]; intros r0 m0 h0 r m h HL L0; cbn [mfold] in HL; [inversion HL; subst; auto|].
  apply bind_ok in HL as ([[r1 m1] h1] & S & HL). unfold hloop at 1 in S. destruct (edge_at edges i) as [a b]. destruct ((use_count edges a =? 1) || (use_count edges b =? 1)).
  - apply bind_ok in S as (u & _ & S). inversion S; subst. destruct (IH _ _ _ _ _ _ HL) as [A B]; [rewrite !app_length; cbn; lia|]. split; auto.
    intros -> ->. exfalso. clear - HL. assert (G : forall l r m h r' m' h', mfold (hloop edges) l (r, m, h) = Ok (r', m', h') -> length h <= length h').
    { clear. induction l as [|i l IH]; intros r m h r' m' h' H; cbn [mfold] in H; [inversion H; auto|]. apply bind_ok in H as ([[r1 m1] h1] & S & H). apply IH in H. unfold hloop in S. destruct (edge_at edges i) as [a b]. destruct (_ || _).
      - apply bind_ok in S as (u & _ & S). inversion S; subst. rewrite app_length in H. lia.
      - inversion S; subst. auto. }
    apply G in HL. cbn in HL. lia.
  - inversion S; subst. apply (IH _ _ _ _ _ _ HL); auto.
Qed.
Theorem sort_sound edges es rs : computeSortedFaceEdges edges = Ok (false, es, rs) ->
  es = edges /\ Permutation (map pid rs) (seq 0 (length edges)) /\ head_to_tail edges rs /\ 2 <= length edges.
Proof.
  unfold computeSortedFaceEdges. intros H. apply bind_ok in H as (u & A2 & H). apply assert_ok, Nat.leb_le in A2. clear u.
  apply bind_ok in H as ([[result m] hanging] & HL & H).
  set (m0 := fold_left (add_edge Nat.ltb (edge_at edges)) (seq 0 (length edges)) []) in *.
  pose proof (hang_len edges (seq 0 (length edges)) [] m0 [] result m hanging HL eq_refl) as G.
  destruct G as [GL GM]. apply bind_ok in H as (u & _ & H). clear u.
  destruct hanging as [|h hs].
  2:{ apply bind_ok in H as ([[e1 r1] l1] & _ & H). apply bind_ok in H as (w & _ & H). apply bind_ok in H as (x0 & _ & H). apply bind_ok in H as (x1 & _ & H). apply bind_ok in H as (x2 & _ & H).
      apply bind_ok in H as (x3 & _ & H). apply bind_ok in H as (x4 & _ & H). inversion H. }
  destruct result; [|discriminate]. rewrite (GM eq_refl eq_refl) in H. clear GL GM HL. cbn [length Nat.eqb bind] in H.
  apply bind_ok in H as (w & W & H). apply bind_ok in H as (x0 & X0 & H). apply bind_ok in H as (x1 & X1 & H). apply bind_ok in H as (rest & O & H).
  apply bind_ok in H as (u & AL & H). apply assert_ok, Nat.eqb_eq in AL. clear u. apply bind_ok in H as (u & P & H). cbn [Nat.eqb negb] in H. inversion H; subst es rs. clear H.
  pose proof (build_inv Nat.ltb (edge_at edges) natlt_tra natlt_tot (seq 0 (length edges))) as I. fold m0 in I.
  destruct (walk_sound Nat.ltb (edge_at edges) natlt_irr natlt_tra natlt_tot _ _ _ _ _ _ I (NoDup_nil _) (fun x _ X => X) W) as (N & L & S). cbn [length] in L.
  apply get_ok in X0. destruct w as [|w0 w]; [discriminate|]. inversion X0; subst x0. cbn [tl] in O. pose proof (orient_pid _ _ _ _ O) as Mr.
  split; auto. split; [|split; auto].
  - cbn [map]. rewrite pid_of_nat, Mr. apply NoDup_Permutation_bis; auto; [rewrite seq_length; lia|]. intros x X. destruct (S x X) as [[]|X']; auto.
  - intros i z z' Z1 Z2. rewrite (proj2 (sedge_ends edges z)), (proj1 (sedge_ends edges z')).
    assert (Li : i < length edges) by (rewrite AL; apply (nth_error_lt (Z.of_nat w0 :: rest) i z Z1)). change (length (Z.of_nat w0 :: rest)) with (Datatypes.S (length rest)) in Z2. change (length edges = Datatypes.S (length rest)) in AL. rewrite <- AL in Z2.
    assert (Q : In i (seq 0 (length edges))) by (apply in_seq; lia).
    revert P Q. generalize tt as st. generalize (seq 0 (length edges)) as l. induction l as [|j l IH]; intros st P Q; [destruct Q|].
    cbn [mfold] in P. apply bind_ok in P as (st1 & P1 & P). destruct Q as [->|Q]; [|eauto].
    apply bind_ok in P1 as (ii & I1 & P1). apply get_ok in I1. apply bind_ok in P1 as (jj & I2 & P1). apply get_ok in I2.
    apply bind_ok in P1 as (v & _ & P1). apply bind_ok in P1 as (v' & _ & P1). apply assert_ok, Z.eqb_eq in P1. congruence.
Qed.
