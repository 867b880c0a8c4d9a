(* Theorems about cleaning edges on several ranks (C46). *)
From Verif Require Import Base BaseFacts SerializeModel MeshModel MeshSpec MeshCheck MeshEditorModel MeshEditorSpec MeshEditorProofs3 MpiModel MpiSpec ExchangeModel DistModel EdgeMaskModel EdgeMaskSpec EdgeMaskProofs2 EdgeMaskProofs4 EdgeMaskProofs5.
From Coq Require Import Lia QArith.
Local Open Scope nat_scope.

(* C46, when no rank has more than one neighbor: under every schedule the exchange ends, every rank
   has node masks and moves to fit its edge masks, and what two ranks share is kept or goes on both.
   k is whatever a rank does next. *)
Theorem masks_agree_partial : forall n P (clean : nat -> bool) (col : nat -> list nat),
  Joined n P -> (forall r, r < n -> length (pnbrs (P r)) <= 1) ->
  (forall r, r < n -> clean r = true -> ~ In 0 (pmask (P r))) ->
  exists em nm col' clean' pairs,
    (forall r, r < n -> Settled (P r) (hd [] (plists (P r))) (em r) (nm r) (col' r) (clean' r) (pairs r) /\
       (* nothing is collapsed that the rank wants to keep, and edges not shared are as they were *)
       (forall i, nth_error (em r) i = Some 0 -> nth_error (pmask (P r)) i = Some 0) /\
       forall i, (forall s l p q, Shares P r s l -> ~ Between (pedges (P r)) l p q i) -> nth_error (em r) i = nth_error (pmask (P r)) i) /\
    (forall r s l l', r < n -> Shares P r s l -> Shares P s r l' -> SameMasks P em r s l l' /\ SameFate (pairs r) (pairs s) l l') /\
    forall A (k : nat -> _ -> res A) ps,
      (forall r, r < n -> ps r = exchangeMasks (pnodes (P r)) (combine (pedges (P r)) (seq 0 (length (pedges (P r))))) (pnbrs (P r)) (plists (P r)) (pmask (P r)) (col r) (clean r) (k r)) ->
      (forall r, n <= r -> exists b, ps r = Ret b) ->
      exists a, Finishes n ps a /\ forall r, r < n -> a r = k r (em r, nm r, col' r, clean' r).
Proof. exact exchange_ok. Qed.
Print Assumptions masks_agree_partial.

(* The whole of cleanEdges on such ranks: they all return; an edge is collapsed exactly if every rank
   that has it wants to; nodes that two ranks share go on both or on neither. *)
Theorem cleanEdges_ranks_partial : forall tol n m,
  (0 < tol)%Q -> SharedBorders n m -> (forall r, r < n -> length (neighborDomains (m r)) <= 1) ->
  exists m' first pairs, Agreement tol n m first pairs /\
    (forall r, r < n -> (pairs r = [] /\ m' r = m r) \/
       (pairs r <> [] /\ exists keepF keepN, Collapsed (m r) (m' r) (pairs r) keepF keepN)) /\
    forall ps, (forall r, r < n -> ps r = cleanEdgesRank 2 tol (m r)) -> (forall r, n <= r -> exists b, ps r = Ret b) ->
      Finishes n ps (fun r => Ok (m' r)).
Proof. exact cleanRanks_ok. Qed.
Print Assumptions cleanEdges_ranks_partial.

(* Afterwards the lists of shared nodes still match: same length, and the same points in the same order. *)
Theorem cleanEdges_ranks_match_partial : forall tol n m,
  (0 < tol)%Q -> SharedBorders n m -> (forall r, r < n -> length (neighborDomains (m r)) <= 1) ->
  (forall r s l l', r < n -> MeshShares m r s l -> MeshShares m s r l' -> SamePoints (m r) (m s) l l') ->
  exists m', (forall ps, (forall r, r < n -> ps r = cleanEdgesRank 2 tol (m r)) -> (forall r, n <= r -> exists b, ps r = Ret b) ->
      Finishes n ps (fun r => Ok (m' r))) /\
    forall r, r < n -> neighborDomains (m' r) = neighborDomains (m r) /\
      forall s, In s (neighborDomains (m r)) -> exists l l', MeshShares m' r s l /\ MeshShares m' s r l' /\ SamePoints (m' r) (m' s) l l'.
Proof.
  intros tol n m T SB One SP. destruct (cleanRanks_ok tol n m T SB One) as (m' & first & pairs & AG & Co & Fin). exists m'. split; auto.
  intros r L. split; [apply (kept_shared (m r) (m' r) (pairs r) (proj1 (sb_mesh _ _ SB r L)) (Co r L))|].
  intros s I. apply In_nth_error in I as [i Hi]. destruct (sb_nbrs _ _ SB r L) as [_ Le]. destruct (nth_error_ex (sharedNodes (m r)) i) as [l Hl]; [rewrite Le; eapply nth_error_lt; eauto|].
  assert (Sh : MeshShares m r s l) by (exists i; auto). destruct (sb_lists _ _ SB r s l L Sh) as (_ & l' & Sh' & _). apply (agree_after tol n m m' first pairs SB AG Co r s l l'); auto.
Qed.
Print Assumptions cleanEdges_ranks_match_partial.

(* What goes wrong with more neighbors: the buffer is not cleared between them, so a rank hears from a
   neighbor that lists it second or later more than it can read, and fails an assertion. *)
Theorem cleanEdges_ranks_fail : forall tol n m ps,
  (0 < tol)%Q -> SharedBorders n m ->
  (forall r, r < n -> ps r = cleanEdgesRank 2 tol (m r)) -> (forall r, n <= r -> exists b, ps r = Ret b) ->
  exists a, Finishes n ps a /\
    forall r s, r < n -> In s (neighborDomains (m r)) -> nth_error (neighborDomains (m s)) 0 <> Some r -> a r = Abort.
Proof. exact cleanRanks_abort. Qed.
Print Assumptions cleanEdges_ranks_fail.

(* -- examples -- *)
Fixpoint distinctb (l : list nat) : bool := match l with [] => true | x :: l => negb (existsb (Nat.eqb x) l) && distinctb l end.
Lemma distinctb_ok l : distinctb l = true -> NoDup l.
Proof.
  induction l as [|x l IH]; cbn; [constructor|]. rewrite andb_true_iff, negb_true_iff. intros [A B]. constructor; auto. intros I. assert (existsb (Nat.eqb x) l = true) by (apply existsb_exists; exists x; split; auto; apply Nat.eqb_refl). congruence.
Qed.
Definition segb (m : mesh Q) (a b : nat) : bool := existsb (fun f => match f with [x; y] => ((x =? a) && (y =? b)) || ((x =? b) && (y =? a)) | _ => false end) (faces m).
Lemma segb_ok m a b : segb m a b = true <-> exists f, segment m f a b.
Proof.
  unfold segb. rewrite existsb_exists. split.
  - intros (f & I & H). apply In_nth_error in I as [i Hi]. destruct f as [|x [|y [|]]]; try discriminate. exists i. apply orb_true_iff in H as [H|H]; apply andb_true_iff in H as [H1 H2]; apply Nat.eqb_eq in H1, H2; subst; [left|right]; auto.
  - intros (i & [H|H]); eexists; (split; [eapply nth_error_In; eauto|]); cbn; rewrite !Nat.eqb_refl; auto. apply orb_true_r.
Qed.
Definition planarb (m : mesh Q) : bool :=
  forallb (fun f => match f with [x; y] => negb (x =? y) | _ => false end) (faces m) && forallb (fun c => distinctb (map pid c)) (cells m).
Lemma planarb_ok m : planarb m = true -> Planar m.
Proof.
  unfold planarb. rewrite andb_true_iff, !forallb_forall. intros [A B]. split.
  - intros f ns H. specialize (A ns (nth_error_In _ _ H)). destruct ns as [|x [|y [|]]]; try discriminate. exists x, y. split; auto. apply negb_true_iff, Nat.eqb_neq in A. auto.
  - intros i c H. specialize (B c (nth_error_In _ _ H)). apply distinctb_ok. auto.
Qed.
Definition borderb (m : mesh Q) : bool := forallb (fun x => match bfaces m x with [] => true | [f; g] => negb (f =? g) | _ => false end) (seq 0 (numNodes 2 m)).
Lemma borderb_ok m : WellFormed 2 m -> Planar m -> borderb m = true -> simple_border m.
Proof.
  intros WF PL H x (f & b & Bf & S). destruct (seg_node _ WF PL _ _ _ S) as (L & _). unfold borderb in H. rewrite forallb_forall in H. specialize (H x ltac:(apply in_seq; lia)).
  assert (I : In f (bfaces m x)) by (apply (bfaces_in m WF PL); eauto). destruct (bfaces m x) as [|f0 [|f1 [|]]] eqn:E; try discriminate; [destruct I|]. exists f0, f1. split; [apply negb_true_iff, Nat.eqb_neq in H; auto|]. intros g. rewrite <- (bfaces_in m WF PL), E. cbn. intuition.
Qed.
Definition pairb (m m' : mesh Q) (l l' : list nat) : bool :=
  (length l' =? length l) && distinctb l &&
  forallb (fun p => forallb (fun q => Bool.eqb (segb m (nth p l 0) (nth q l 0)) (segb m' (nth p l' 0) (nth q l' 0))) (seq 0 (length l))) (seq 0 (length l)).
Lemma pairb_ok m m' l l' : pairb m m' l l' = true -> NoDup l /\ length l' = length l /\
  forall p q a b a' b', nth_error l p = Some a -> nth_error l q = Some b -> nth_error l' p = Some a' -> nth_error l' q = Some b' -> ((exists f, segment m f a b) <-> (exists f, segment m' f a' b')).
Proof.
  unfold pairb. rewrite !andb_true_iff, Nat.eqb_eq. intros ((A & B) & C). split; [apply distinctb_ok; auto|]. split; auto.
  intros p q a b a' b' Hp Hq Hp' Hq'. rewrite forallb_forall in C. specialize (C p ltac:(apply in_seq; split; [lia|]; eapply nth_error_lt; eauto)). rewrite forallb_forall in C. specialize (C q ltac:(apply in_seq; split; [lia|]; eapply nth_error_lt; eauto)).
  apply eqb_prop in C. rewrite (nth_error_nth _ _ 0 Hp), (nth_error_nth _ _ 0 Hq), (nth_error_nth _ _ 0 Hp'), (nth_error_nth _ _ 0 Hq') in C. rewrite <- !segb_ok, C. tauto.
Qed.
Definition backb (m : nat -> mesh Q) (r s : nat) (l : list nat) : bool :=
  match find (fun x => fst x =? r) (combine (neighborDomains (m s)) (sharedNodes (m s))) with Some (_, l') => pairb (m r) (m s) l l' | None => false end.
Definition sharedb (n : nat) (m : nat -> mesh Q) : bool :=
  forallb (fun r => wfb 2 (m r) && planarb (m r) && borderb (m r) && (Z.of_nat (length (neighborDomains (m r)) * (4 + 4 * length (faces (m r)))) <? 2 ^ 32)%Z &&
    distinctb (neighborDomains (m r)) && (length (sharedNodes (m r)) =? length (neighborDomains (m r))) &&
    forallb (fun s => s <? n) (neighborDomains (m r)) &&
    forallb (fun x => backb m r (fst x) (snd x)) (combine (neighborDomains (m r)) (sharedNodes (m r)))) (seq 0 n).
Lemma combine_nth_in {X Y} (l : list X) : forall (l' : list Y) i x y, nth_error l i = Some x -> nth_error l' i = Some y -> In (x, y) (combine l l').
Proof. induction l as [|a l IH]; intros [|b l'] [|i] x y Hx Hy; try discriminate; cbn in *; [injection Hx as ->; injection Hy as ->; auto|right; eauto]. Qed.
Lemma combine_in_nth {X Y} (l : list X) : forall (l' : list Y) x y, In (x, y) (combine l l') -> exists i, nth_error l i = Some x /\ nth_error l' i = Some y.
Proof. induction l as [|a l IH]; intros [|b l'] x y I; try destruct I as []. - injection H as -> ->. exists 0. auto. - destruct (IH l' x y H) as (i & A & B). exists (S i). auto. Qed.
Lemma sharedb_ok n m : sharedb n m = true -> SharedBorders n m.
Proof.
  unfold sharedb. rewrite forallb_forall. intros H. assert (H' : forall r, r < n -> _) by (intros r L; exact (H r ltac:(apply in_seq; lia))). clear H. cbn beta in H'.
  constructor; intros r.
  - intros L. specialize (H' r L). rewrite !andb_true_iff in H'. destruct H' as (((((((A & B) & C) & _) & _) & _) & _) & _). assert (WF := wfb_sound 2 (m r) A). assert (PL := planarb_ok _ B). split; auto. split; auto. apply borderb_ok; auto.
  - intros L. specialize (H' r L). rewrite !andb_true_iff in H'. destruct H' as (((((((A & B) & C) & D) & _) & _) & _) & _). apply Z.ltb_lt in D. exact D.
  - intros L. specialize (H' r L). rewrite !andb_true_iff in H'. destruct H' as (((((((A & B) & C) & _) & D) & E) & _) & _). apply Nat.eqb_eq in E. split; auto. apply distinctb_ok; auto.
  - intros s L I. specialize (H' r L). rewrite !andb_true_iff in H'. destruct H' as (((((((A & B) & C) & _) & D) & E) & F) & _). rewrite forallb_forall in F. apply Nat.ltb_lt. apply F. auto.
  - intros s l L (i & Hs & Hl). specialize (H' r L). rewrite !andb_true_iff in H'. destruct H' as (((((((A & B) & C) & _) & D) & E) & F) & G). rewrite forallb_forall in G. specialize (G (s, l) (combine_nth_in _ _ i _ _ Hs Hl)). cbn [fst snd] in G. unfold backb in G.
    destruct (find _ _) as [[r' l']|] eqn:Ef; [|discriminate]. apply find_some in Ef as [I Er]. cbn in Er. apply Nat.eqb_eq in Er. subst r'. apply combine_in_nth in I as (j & J1 & J2). destruct (pairb_ok _ _ _ _ G) as (P1 & P2 & P3). split; auto. exists l'. split; [exists j; auto|]. auto.
Qed.

(* two squares side by side, with a short edge in the side they share; rank 2 has a mesh of its own *)
Definition left_square nd sn : mesh Q := mkMesh
  (map inject_Z [0; 0;  10; 0;  10; 5;  10; 6;  10; 10;  0; 10]%Z)
  [[0; 1; 2; 3; 4; 5]]%Z [[0; 1]; [1; 2]; [2; 3]; [3; 4]; [4; 5]; [5; 0]]
  [] [] [[0]; [0]; [0]; [0]; [0]; [0]]%Z plc_new nd sn (map (fun _ => []) sn).
Definition right_square nd sn : mesh Q := mkMesh
  (map inject_Z [20; 0;  20; 10;  10; 10;  10; 6;  10; 5;  10; 0]%Z)
  [[0; 1; 2; 3; 4; 5]]%Z [[0; 1]; [1; 2]; [2; 3]; [3; 4]; [4; 5]; [5; 0]]
  [] [] [[0]; [0]; [0]; [0]; [0]; [0]]%Z plc_new nd sn (map (fun _ => []) sn).
Definition two_ranks (r : nat) : mesh Q := match r with 0 => left_square [1] [[1; 2; 3; 4]] | 1 => right_square [0] [[5; 4; 3; 2]] | _ => left_square [] [] end.
Example two_ranks_share : SharedBorders 3 two_ranks /\ forall r, r < 3 -> length (neighborDomains (two_ranks r)) <= 1.
Proof. split; [apply sharedb_ok; vm_compute; reflexivity|]. intros r L. do 3 (destruct r; [vm_compute; auto|]). lia. Qed.
Example two_ranks_points : forall r s l l', r < 3 -> MeshShares two_ranks r s l -> MeshShares two_ranks s r l' -> SamePoints (two_ranks r) (two_ranks s) l l'.
Proof.
  intros r s l l' L (i & A & B) (j & C & D). do 2 (destruct r as [|r]; [destruct i as [|[|]]; try discriminate; injection A as <-; injection B as <-; destruct j as [|[|]]; try discriminate; injection D as <-; repeat constructor|]). destruct r as [|r]; [destruct i; discriminate|lia].
Qed.
(* the short edge goes on both ranks, and on each one node of it *)
Example two_ranks_want : forall r, r < 2 -> exists st em nm col, flags 2 (1 # 5)%Q (two_ranks r) = Ok (st, (em, nm, col, false)).
Proof. intros r L. do 2 (destruct r; [vm_compute; repeat eexists|]). lia. Qed.

(* three squares in a row: the middle one has two neighbors *)
Definition middle_square nd sn : mesh Q := mkMesh
  (map inject_Z [10; 0;  20; 0;  20; 10;  10; 10]%Z)
  [[0; 1; 2; 3]]%Z [[0; 1]; [1; 2]; [2; 3]; [3; 0]]
  [] [] [[0]; [0]; [0]; [0]]%Z plc_new nd sn (map (fun _ => []) sn).
Definition three_ranks (r : nat) : mesh Q := match r with 0 => middle_square [1] [[1; 2]] | 1 => middle_square [0; 2] [[0; 3]; [1; 2]] | _ => middle_square [1] [[0; 3]] end.
Example three_ranks_share : SharedBorders 3 three_ranks.
Proof. apply sharedb_ok. vm_compute. reflexivity. Qed.

(* so the property cannot be had for every number of neighbors *)
Definition cleanEdges_ranks_return : Prop := forall tol n m ps,
  (0 < tol)%Q -> SharedBorders n m ->
  (forall r, r < n -> ps r = cleanEdgesRank 2 tol (m r)) -> (forall r, n <= r -> exists b, ps r = Ret b) ->
  exists m', Finishes n ps (fun r => Ok (m' r)).
Theorem cleanEdges_ranks_refuted : ~ cleanEdges_ranks_return.
Proof.
  intros C. set (ps := fun r => if r <? 3 then cleanEdgesRank 2 (1 # 5) (three_ranks r) else Ret Abort).
  assert (Hp : forall r, r < 3 -> ps r = cleanEdgesRank 2 (1 # 5) (three_ranks r)) by (intros r L; unfold ps; apply Nat.ltb_lt in L; rewrite L; auto).
  assert (Ho : forall r, 3 <= r -> exists b, ps r = Ret b) by (intros r L; unfold ps; apply Nat.ltb_ge in L; rewrite L; eauto).
  destruct (C (1 # 5)%Q 3 three_ranks ps ltac:(reflexivity) three_ranks_share Hp Ho) as [m' F].
  destruct (cleanEdges_ranks_fail (1 # 5)%Q 3 three_ranks ps ltac:(reflexivity) three_ranks_share Hp Ho) as (a & F2 & Ha).
  specialize (Ha 2 1 ltac:(lia) ltac:(cbn; auto) ltac:(cbn; discriminate)).
  pose proof (finishes_unique 3 ps _ _ F F2 2 ltac:(lia)) as E. cbn beta in E. congruence.
Qed.
Print Assumptions cleanEdges_ranks_refuted.

(* Cleaning on a rank without neighbors is not cleaning in a program of one process: the nodes that go
   are chosen anew, and the border is not looked at. *)
Definition cleaning_alone_same : Prop := forall tol m m',
  (0 < tol)%Q -> WellFormed 2 m -> Planar m -> simple_border m -> neighborDomains m = [] ->
  cleanEdges 2 tol m = Ok m' -> cleanEdgesRank 2 tol m = Ret (Ok m').
(* two cells; node 0 is inside, 1 away from node 1 on the border *)
Definition near_border_mesh : mesh Q := mkMesh
  (map inject_Z [10; 1;  10; 0;  20; 0;  20; 10;  10; 10;  0; 10;  0; 0]%Z)
  [[0; 1; 2; 3; 4]; [-5; -4; 5; 6; 7]]%Z
  [[1; 2]; [2; 3]; [3; 4]; [4; 0]; [0; 1]; [4; 5]; [5; 6]; [6; 1]]
  [] [] [[0]; [0]; [0]; [0; -2]; [0; -2]; [1]; [1]; [1]]%Z plc_new [] [] [].
Example near_border_ok : WellFormed 2 near_border_mesh /\ Planar near_border_mesh /\ simple_border near_border_mesh.
Proof. assert (W : WellFormed 2 near_border_mesh) by (apply wfb_sound; vm_compute; reflexivity). assert (P : Planar near_border_mesh) by (apply planarb_ok; vm_compute; reflexivity). split; auto. split; auto. apply borderb_ok; auto. Qed.
(* in one process the border node stays, on one rank of several it goes: the border is dented *)
Example near_border_differs : exists m1 m2, cleanEdges 2 (1 # 5)%Q near_border_mesh = Ok m1 /\ cleanEdgesRank 2 (1 # 5)%Q near_border_mesh = Ret (Ok m2) /\
  pos m1 0 = map inject_Z [10; 0]%Z /\ pos m2 0 = map inject_Z [10; 1]%Z /\ length (nodes m1) = 12 /\ length (nodes m2) = 12.
Proof. vm_compute. eexists _, _. repeat split. Qed.
Theorem cleaning_alone_refuted : ~ cleaning_alone_same.
Proof.
  intros C. destruct near_border_differs as (m1 & m2 & E1 & E2 & P1 & P2 & _). destruct near_border_ok as (W & P & B).
  rewrite (C (1 # 5)%Q near_border_mesh m1 ltac:(reflexivity) W P B eq_refl E1) in E2. injection E2 as <-. rewrite P1 in P2. discriminate.
Qed.
Print Assumptions cleaning_alone_refuted.

(* masks_agree_partial applies to the two squares: both ranks want to collapse edge 2 *)
Example two_pieces : exists P, Joined 3 P /\ (forall r, r < 3 -> length (pnbrs (P r)) <= 1) /\ pmask (P 0) = [1; 1; 0; 1; 1; 1] /\ pmask (P 1) = [1; 1; 1; 0; 1; 1].
Proof.
  destruct two_ranks_share as [SB One]. destruct (flagged_all (1 # 5)%Q 3 two_ranks ltac:(reflexivity) SB) as (st & c2e & em & col & clean & first & FL).
  exists (fun r => mypiece (two_ranks r) (st r) (em r)). split; [exact (joined_of _ _ _ _ _ _ _ _ _ SB FL)|]. split; [exact One|]. cbn [pmask mypiece]. split.
  - destruct (fl_run _ _ _ _ _ _ _ _ (FL 0 ltac:(lia))) as [nm H]. vm_compute in H. injection H as _ H _ _ _. auto.
  - destruct (fl_run _ _ _ _ _ _ _ _ (FL 1 ltac:(lia))) as [nm H]. vm_compute in H. injection H as _ H _ _ _. auto.
Qed.
