(* A polygon library for convex cells in a box, and checkers for the conditions on polygons: for the
   examples only. *)
From Coq Require Import QArith.
From Verif Require Import Base BaseFacts QuantMeshModel QuantMeshSpec QuantMeshProofs PLCSpec ClipModel ClipSpec BoundedSpec.
Local Open Scope nat_scope.

Definition zcross (a b c : pt) : Z := ((fst b - fst a) * (snd c - snd a) - (snd b - snd a) * (fst c - fst a))%Z.
Definition zarea (p : polygon) : Z := fold_right Z.add 0%Z (map (fun s => fst (fst s) * snd (snd s) - snd (fst s) * fst (snd s))%Z (ring p)).
Definition cut (inside : pt -> bool) (meet : pt -> pt -> pt) (p : polygon) : polygon :=
  flat_map (fun s => let (a, b) := s : pt * pt in
    if inside a then (if inside b then [b] else [meet a b]) else if inside b then [meet a b; b] else []) (ring p).
Definition meet_x (x : Z) (a b : pt) : pt := (x, snd a + (x - fst a) * (snd b - snd a) / (fst b - fst a))%Z.
Definition meet_y (y : Z) (a b : pt) : pt := ((fst a + (y - snd a) * (fst b - fst a) / (snd b - snd a))%Z, y).
Definition least (l : list Z) : Z := match l with [] => 0%Z | a :: t => fold_left Z.min t a end.
Definition most (l : list Z) : Z := match l with [] => 0%Z | a :: t => fold_left Z.max t a end.
Definition box_cut (box cell : polygon) : polygon :=
  let x0 := least (map fst box) in let x1 := most (map fst box) in let y0 := least (map snd box) in let y1 := most (map snd box) in
  let c := cut (fun p => x0 <=? fst p)%Z (meet_x x0) cell in
  let c := cut (fun p => fst p <=? x1)%Z (meet_x x1) c in
  let c := cut (fun p => y0 <=? snd p)%Z (meet_y y0) c in
  let c := cut (fun p => snd p <=? y1)%Z (meet_y y1) c in
  let c := if (zarea c <? 0)%Z then rev c else c in
  match c with [] => [] | a :: _ => c ++ [a] end.
Definition box_lib : polylib := mkLib
  (fun o _ => [o])
  (fun cells bs => flat_map (fun c => map (fun b => box_cut b c) bs) cells)
  (fun a b => a ++ b)
  (fun p q => forallb (fun s => (0 <=? zcross (fst s) (snd s) q)%Z) (sides p))
  (fun _ _ _ => false).

Definition apartb (polys : list polygon) : bool :=
  let all := concat polys in
  forallb (fun a => forallb (fun b => pt_eqb a b || (4 <? Z.abs (fst a - fst b))%Z || (4 <? Z.abs (snd a - snd b))%Z) all) all.
Lemma apartb_ok polys : apartb polys = true -> WellApart polys.
Proof.
  unfold apartb. rewrite forallb_forall. intros H p q a b Ip Iq Ia Ib.
  assert (A : In a (concat polys)) by (apply in_concat; eauto). assert (B : In b (concat polys)) by (apply in_concat; eauto).
  specialize (H a A). rewrite forallb_forall in H. specialize (H b B). rewrite !orb_true_iff, !Z.ltb_lt, pt_eqb_iff in H. tauto.
Qed.
Definition seg_eqb (s t : pt * pt) : bool := pt_eqb (fst s) (fst t) && pt_eqb (snd s) (snd t).
Lemma seg_eqb_iff s t : seg_eqb s t = true <-> s = t.
Proof. unfold seg_eqb. rewrite andb_true_iff, !pt_eqb_iff. destruct s, t; cbn. split; [intros [-> ->]; auto|intros E; injection E as -> ->; auto]. Qed.
Fixpoint onceb (l : list (pt * pt)) : bool := match l with [] => true | s :: t => negb (existsb (seg_eqb s) t) && onceb t end.
Lemma onceb_ok l : onceb l = true -> NoDup l.
Proof.
  induction l as [|s l IH]; cbn; constructor; apply andb_true_iff in H as [A B]; auto. intros I. apply negb_true_iff in A.
  enough (existsb (seg_eqb s) l = true) by congruence. apply existsb_exists. exists s. split; auto. apply seg_eqb_iff. auto.
Qed.
Definition sideb (polys : list polygon) : bool := forallb (fun s => negb (pt_eqb (fst s) (snd s))) (all_sides polys) && onceb (all_sides polys).
Lemma sideb_ok polys : sideb polys = true -> SideBySide polys.
Proof.
  unfold sideb. rewrite andb_true_iff, forallb_forall. intros [A B]. split; [|apply onceb_ok; auto].
  intros s I E. specialize (A s I). apply negb_true_iff in A. apply pt_eqb_iff in E. congruence.
Qed.
Definition outerb (polys : list polygon) (s : pt * pt) : bool := existsb (seg_eqb s) (all_sides polys) && negb (existsb (seg_eqb (snd s, fst s)) (all_sides polys)).
Lemma outerb_ok polys s : outerb polys s = true -> OuterSide polys s.
Proof.
  unfold outerb. rewrite andb_true_iff, negb_true_iff. intros [A B]. split.
  - apply existsb_exists in A as (t & I & E). apply seg_eqb_iff in E. subst. auto.
  - intros I. enough (existsb (seg_eqb (snd s, fst s)) (all_sides polys) = true) by congruence. apply existsb_exists. eexists. split; [exact I|]. apply seg_eqb_iff. auto.
Qed.

(* the corners of a cell, and the polygon the library makes of it *)
Definition cornersb (ns : list pt) (es : list (nat * nat)) (c : list Z) : option polygon :=
  fold_right (fun z r => match oriented_ends ns es z, r with Some s, Some l => Some (fst s :: l) | _, _ => None end) (Some []) c.
Lemma cornersb_ok ns es c k : cornersb ns es c = Some k -> Corners ns es c k.
Proof.
  revert k. induction c as [|z c IH]; cbn; intros k H.
  - injection H as <-. exists []. auto.
  - destruct (oriented_ends ns es z) as [s|] eqn:E; [|discriminate]. fold (cornersb ns es c) in H. destruct (cornersb ns es c) as [l|]; [|discriminate]. injection H as <-.
    destruct (IH l eq_refl) as (segs & A & ->). exists (s :: segs). cbn. rewrite E, A. auto.
Qed.
Definition closedb (p : polygon) : bool :=
  match p with [] => false | v :: t => match rev t with w :: u => pt_eqb v w && (2 <=? length u) | [] => false end end.
Lemma closedb_ok p : closedb p = true -> exists v vs, p = v :: vs ++ [v] /\ 2 <= length vs.
Proof.
  destruct p as [|v t]; [discriminate|]. unfold closedb. destruct (rev t) as [|w u] eqn:E; [discriminate|]. rewrite andb_true_iff, pt_eqb_iff, Nat.leb_le. intros [<- L].
  exists v, (rev u). rewrite rev_length. split; auto. f_equal. rewrite <- (rev_involutive t), E. reflexivity.
Qed.
Definition pieceb (lib : polylib) (bs : list polygon) (gens ns : list pt) (es : list (nat * nat)) (polys : list polygon) (ic : nat * list Z) : bool :=
  match nth_error gens (fst ic), nth_error polys (fst ic), cornersb ns es (snd ic) with
  | Some g, Some p, Some k =>
      match b_and lib (b_or lib [] [k]) bs with
      | [q] => (length p =? length q) && forallb (fun ab => pt_eqb (fst ab) (snd ab)) (combine p q) && b_contains lib p g && closedb p
      | _ => false
      end
  | _, _, _ => false
  end.
Lemma same_list (p q : list pt) : length p = length q -> forallb (fun ab => pt_eqb (fst ab) (snd ab)) (combine p q) = true -> p = q.
Proof.
  revert q. induction p as [|a p IH]; intros [|b q] L H; try discriminate; auto. cbn in H. apply andb_true_iff in H as [A B]. apply pt_eqb_iff in A. subst.
  f_equal. apply IH; auto.
Qed.
Lemma pieceb_ok lib bs gens ns es polys cs : forallb (pieceb lib bs gens ns es polys) (combine (seq 0 (length cs)) cs) = true ->
  forall i c, nth_error cs i = Some c -> exists gen corners poly, nth_error gens i = Some gen /\ nth_error polys i = Some poly /\
     Corners ns es c corners /\ OnePiece lib bs gen corners poly.
Proof.
  rewrite forallb_forall. intros H i c Hc. assert (I : In (i, c) (combine (seq 0 (length cs)) cs)).
  { apply nth_error_In with i. assert (K : forall (l : list (list Z)) s i c, nth_error l i = Some c -> nth_error (combine (seq s (length l)) l) i = Some (s + i, c)).
    { induction l as [|a l IH]; intros s [|j] d Hd; try discriminate; cbn in *; [injection Hd as ->; f_equal; f_equal; lia|]. rewrite (IH (S s) j d Hd). f_equal. f_equal. lia. }
    apply (K cs 0). auto. }
  specialize (H _ I). unfold pieceb in H. cbn [fst snd] in H. destruct (nth_error gens i) as [g|]; [|discriminate]. destruct (nth_error polys i) as [p|]; [|discriminate].
  destruct (cornersb ns es c) as [k|] eqn:Ek; [|discriminate]. destruct (b_and lib (b_or lib [] [k]) bs) as [|q [|? ?]] eqn:Eb; try discriminate.
  rewrite !andb_true_iff, Nat.eqb_eq in H. destruct H as (((A & B) & C) & D). pose proof (same_list _ _ A B) as ->.
  exists g, k, q. split; auto. split; auto. split; [apply cornersb_ok; auto|]. split; auto. split; auto. apply closedb_ok. auto.
Qed.
