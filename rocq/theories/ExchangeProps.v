(* C43: the exchange of shared node positions. *)
From Verif Require Import Base BaseFacts MpiModel MpiSpec MpiProofs2 ExchangeModel ExchangeSpec ExchangeProofs2.
From Coq Require Import Lia.

(* every rank runs the code of lines 585-736 on what it has *)
Definition ranks {V} (D n : nat) (P : nat -> part V) (r : nat) : prog (msg V) (list V) :=
  if r <? n then exchange D r (coords (P r)) (neighbors (P r)) (shared (P r)) else Ret (Ok []).

(* Whatever the order in which messages travel, no rank waits for ever or aborts, and then each
   copy of a node has the coordinates it had on the lowest rank that holds it. *)
Theorem shared_positions : forall (V : Type) (D n : nat) (P : nat -> part V), 0 < D -> Consistent D n P ->
  exists final : nat -> list V,
    Finishes n (ranks D n P) (fun r => Ok (final r)) /\
    forall r, r < n -> length (final r) = length (coords (P r)) /\
      forall i x o j, nth_error (names (P r)) i = Some x -> Lowest n P x o -> nth_error (names (P o)) j = Some x ->
        position D (final r) i = position D (coords (P o)) j.
Proof. intros V D n P Dp C. exact (exchange_all D Dp n P C). Qed.
Print Assumptions shared_positions.

(* so any two copies of a node end up the same *)
Corollary copies_agree : forall (V : Type) (D n : nat) (P : nat -> part V), 0 < D -> Consistent D n P ->
  exists final : nat -> list V,
    Finishes n (ranks D n P) (fun r => Ok (final r)) /\
    forall r s i j x, r < n -> s < n -> nth_error (names (P r)) i = Some x -> nth_error (names (P s)) j = Some x ->
      position D (final r) i = position D (final s) j.
Proof.
  intros V D n P Dp C. destruct (shared_positions V D n P Dp C) as (f & F & H). exists f. split; auto. intros r s i j x Lr Ls Ei Ej.
  assert (T : exists o, Lowest n P x o).
  { assert (G : forall m, m <= n -> (exists o, Lowest n P x o) \/ forall s, s < m -> ~ Holds (P s) x).
    { induction m as [|m IH]; intros Lm; [right; intros; lia|]. destruct IH as [G|G]; [lia|auto|]. destruct (in_dec Nat.eq_dec x (names (P m))) as [I|I].
      - left. exists m. split; [lia|]. split; auto. intros q Lq Hq. destruct (Nat.lt_ge_cases q m); auto. exfalso. eapply G; eauto.
      - right. intros q Lq. destruct (Nat.eq_dec q m) as [->|]; auto. apply G. lia. }
    destruct (G n) as [T|T]; auto. exfalso. apply (T r Lr). eapply nth_error_In; eauto. }
  destruct T as [o Lo]. pose proof Lo as (_ & Ho & _). apply In_nth_error in Ho as [k Ek]. destruct (H r Lr) as [_ H1]. destruct (H s Ls) as [_ H2]. rewrite (H1 i x o k), (H2 j x o k); auto.
Qed.
Print Assumptions copies_agree.

(* three ranks; node 5 is on all of them, node 6 on ranks 0 and 1, node 7 on ranks 1 and 2 *)
Definition example (r : nat) : part nat :=
  match r with
  | 0 => mkPart [10; 11; 12; 13; 14; 15] [5; 6; 4] [1; 2] [[1; 0]; [0]]
  | 1 => mkPart [20; 21; 22; 23; 24; 25] [6; 7; 5] [2; 0] [[1; 2]; [0; 2]]
  | _ => mkPart [30; 31; 32; 33] [7; 5] [0; 1] [[1]; [0; 1]]
  end.
Example example_consistent : Consistent 2 3 example.
Proof.
  split.
  - intros r L. destruct r as [|[|[|]]]; [| | |lia]; cbn; auto.
  - intros r L. destruct r as [|[|[|]]]; [| | |lia]; cbn; repeat constructor; cbn; intuition lia.
  - intros r L. destruct r as [|[|[|]]]; [| | |lia]; (split; [repeat constructor; cbn; intuition lia|]); cbn; intros s [<-|[<-|[]]]; lia.
  - intros r i s l L E F. destruct r as [|[|[|]]]; [| | |lia]; destruct i as [|[|[|]]]; cbn in E, F; try discriminate; injection E as <-; injection F as <-.
    + exists 1, [0; 2]. split; auto. split; auto. exists [6; 5]. split; repeat constructor.
    + exists 0, [1]. split; auto. split; auto. exists [5]. split; repeat constructor.
    + exists 1, [0; 1]. split; auto. split; auto. exists [7; 5]. split; repeat constructor.
    + exists 0, [1; 0]. split; auto. split; auto. exists [6; 5]. split; repeat constructor.
    + exists 1, [0]. split; auto. split; auto. exists [5]. split; repeat constructor.
    + exists 0, [1; 2]. split; auto. split; auto. exists [7; 5]. split; repeat constructor.
  - intros r s x Lr Ls N Hr Hs. destruct r as [|[|[|]]]; [| | |lia]; destruct s as [|[|[|]]]; try lia; cbn in Hr, Hs;
      repeat (destruct Hr as [Hr|Hr]; [|]); try contradiction; subst x; cbn in Hs; try (exfalso; intuition lia);
      unfold Lists; cbn.
    + exists 0, [1; 0], 0. cbn. auto 10.
    + exists 0, [1; 0], 1. cbn. auto 10.
    + exists 1, [0], 0. cbn. auto 10.
    + exists 1, [0; 2], 0. cbn. auto 10.
    + exists 1, [0; 2], 2. cbn. auto 10.
    + exists 0, [1; 2], 1. cbn. auto 10.
    + exists 0, [1; 2], 2. cbn. auto 10.
    + exists 0, [1], 1. cbn. auto 10.
    + exists 1, [0; 1], 0. cbn. auto 10.
    + exists 1, [0; 1], 1. cbn. auto 10.
Qed.
Example example_owner : Lowest 3 example 7 1 /\ nth_error (names (example 2)) 0 = Some 7 /\ position 2 (coords (example 1)) 1 = [22; 23] /\ position 2 (coords (example 2)) 0 = [30; 31].
Proof.
  split; auto. split; [lia|]. split; [cbn; auto|]. intros s L H. destruct s as [|[|[|]]]; [|lia|lia|lia]. cbn in H. intuition lia.
Qed.

(* The lists must be complete.  If ranks 0 and 2 hold a node that only rank 1 knows both of them to
   share, rank 2 stops at the size check of line 699 in every schedule. *)
Definition chain (r : nat) : part nat :=
  match r with 0 => mkPart [10] [5] [1] [[0]] | 1 => mkPart [20] [5] [0; 2] [[0]; [0]] | _ => mkPart [30] [5] [1] [[0]] end.
Theorem incomplete_lists_abort : Finishes 3 (ranks 1 3 chain) (fun r => match r with 2 => Abort | _ => Ok [10] end).
Proof.
  refine (sends_then_gets 3 _ (fun r => match r with 0 => [(1, 9, MSize 1); (1, 10, MCoords [10])] | 1 => [(0, 9, MSize 0); (2, 9, MSize 0)] | _ => [(1, 9, MSize 0)] end)
    (fun r => receives 1 (match r with 0 => [(1, [])] | 1 => [(0, [0]); (2, [])] | _ => [(1, [0])] end) (coords (chain r))) (fun r => match r with 0 => 1 | 1 => 3 | _ => 1 end) _ _ _ _).
  - intros r L. destruct r as [|[|[|]]]; [| | |lia]; reflexivity.
  - intros r L. unfold ranks. destruct (Nat.ltb_spec r 3); [lia|]. eauto.
  - intros r L. destruct r as [|[|[|]]]; [| | |lia].
    + eapply gets_recv; [reflexivity|]. cbn. constructor.
    + eapply gets_recv; [reflexivity|]. cbn. eapply gets_recv; [reflexivity|]. cbn. eapply gets_recv; [reflexivity|]. cbn. constructor.
    + eapply gets_recv; [reflexivity|]. cbn. constructor.
Qed.
Print Assumptions incomplete_lists_abort.
