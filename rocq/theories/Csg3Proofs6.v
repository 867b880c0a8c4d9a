(* Convex solids and the operations on them. *)
From Verif Require Import Base BaseFacts PLCSpec Plane WithinSpec MeshEditorModel RayModel Hull3Model Csg3Spec Csg3Model Csg3Proofs Csg3Proofs2 Csg3Proofs3 Csg3Proofs4 Csg3Proofs5 WithinProofs HullProofs3.
From Coq Require Import QArith Lqa Lia Permutation.
Local Open Scope Q_scope.

Definition tripoly (t : tri) : poly := mkpoly (corners3 t).
Lemma side_tri t x : side (pplane (tripoly t)) x == beyond t x.
Proof. destruct t as ((a & b) & c). unfold side, beyond, vol6, tripoly, corners3, mkpoly, mkplane, cross3, dot3. cbn [fst snd pplane pnorm pw]. coords. ring. Qed.
Lemma real_of eps t v : 0 <= eps -> beyond t v < - eps -> Real t.
Proof.
  intros E H. unfold Real. destruct (Qlt_le_dec 0 (dotn (normal3 t) (normal3 t))) as [L|L]; auto. exfalso. rewrite beyond_dot in H. rewrite !dotn_C in *.
  set (p := C 0 (normal3 t)) in *. set (q := C 1 (normal3 t)) in *. set (r := C 2 (normal3 t)) in *. clearbody p q r.
  assert (P : p == 0) by nra. assert (Qq : q == 0) by nra. assert (R : r == 0) by nra. rewrite P, Qq, R in H. lra.
Qed.
Lemma tri_piece t : Real t -> PieceOf t (corners3 t).
Proof.
  intros R. split; [cbn; lia|]. split; [intros v Iv; apply hull_comb; apply hull_in; auto|].
  intros i j k a b c O Hi Hj Hk. unfold corners3 in *.
  assert (K : (k < 3)%nat) by (change 3%nat with (length [fst (fst t); snd (fst t); snd t]); apply nth_error_Some; congruence).
  assert (i = 0 /\ j = 1 /\ k = 2)%nat as (-> & -> & ->) by lia. cbn in Hi, Hj, Hk. injection Hi as <-. injection Hj as <-. injection Hk as <-.
  unfold Real in R. assert (E : turn (normal3 t) (fst (fst t)) (snd (fst t)) (snd t) == dotn (normal3 t) (normal3 t)).
  { destruct t as ((a & b) & c). unfold normal3, dotn. cbn [fst snd]. coords. ring. }
  rewrite E. auto.
Qed.
Lemma tri_pp t : Real t -> PP t (tripoly t).
Proof. intros R. apply mk_pp; auto. apply tri_piece; auto. Qed.
Lemma tri_ok t : Real t -> plane_ok (pplane (tripoly t)) = true.
Proof.
  unfold Real, plane_ok. intros R. assert (E : dot3 (pnorm (pplane (tripoly t))) (pnorm (pplane (tripoly t))) == dotn (normal3 t) (normal3 t)).
  { destruct t as ((a & b) & c). unfold tripoly, corners3, mkpoly, mkplane, cross3, dot3, normal3, dotn. cbn [fst snd pplane pnorm]. coords. ring. }
  destruct (qltb_spec 0 (dot3 (pnorm (pplane (tripoly t))) (pnorm (pplane (tripoly t))))); auto; exfalso; lra.
Qed.
Lemma cov_tri t x : cov (tripoly t) x <-> Combination3 (corners3 t) x.
Proof. unfold cov. cbn [pverts tripoly mkpoly]. symmetry. apply hull_iff. Qed.

(* ---- the triangles of a boundary ---- *)
Lemma point_corner cs k : (3 * k + 3 <= length cs)%nat -> point_at cs k = Ok (corner cs k).
Proof.
  intros H. unfold point_at, corner, get.
  rewrite (nth_error_nth' cs 0 (n := 3 * k)), (nth_error_nth' cs 0 (n := 3 * k + 1)), (nth_error_nth' cs 0 (n := 3 * k + 2)) by lia. reflexivity.
Qed.
Lemma facet_ok cs f : (3 <= length f)%nat -> (forall k, In k f -> (3 * k + 3 <= length cs)%nat) ->
  facet_polygons cs f = Ok (map tripoly (fan3 (map (corner cs) f))).
Proof.
  intros L H. unfold facet_polygons. rewrite (proj2 (Nat.leb_le _ _) L). cbn [assert bind]. destruct f as [|k1 r]; [cbn in L; lia|]. cbn [get nth_error bind].
  apply mmap_eq. apply forall2_of_nth.
  - cbn [map fan3 length] in *. rewrite seq_length, !map_length, combine_length. destruct r; cbn [map tl length] in *; rewrite ?map_length; lia.
  - intros i j p Hj Hp.
    assert (Li : (i < length r - 1)%nat) by (assert (i < length (seq 1 (length (k1 :: r) - 2)))%nat by (apply nth_error_Some; congruence); rewrite seq_length in *; cbn [length] in *; lia).
    assert (j = S i) as ->. { pose proof (nth_error_nth _ _ 0%nat Hj) as X. rewrite seq_nth in X by (cbn [length]; lia). lia. }
    cbn [map fan3] in Hp. rewrite nth_error_map in Hp.
    destruct (nth_error (map (fun e => (corner cs k1, fst e, snd e)) (combine (map (corner cs) r) (tl (map (corner cs) r)))) i) as [t|] eqn:Et; [|discriminate]. injection Hp as <-.
    rewrite nth_error_map in Et. destruct (nth_error (combine (map (corner cs) r) (tl (map (corner cs) r))) i) as [(u, w)|] eqn:Eu; [|discriminate]. injection Et as <-. cbn [fst snd].
    pose proof (nth_error_nth' r 0%nat (n := i) ltac:(lia)) as N1. pose proof (nth_error_nth' r 0%nat (n := S i) ltac:(lia)) as N2. set (a := nth i r 0%nat) in *. set (b := nth (S i) r 0%nat) in *. clearbody a b.
    assert (U : u = corner cs a /\ w = corner cs b).
    { assert (EE : nth_error (combine (map (corner cs) r) (tl (map (corner cs) r))) i = Some (corner cs a, corner cs b)).
      { clear - N1 N2. revert i a b N1 N2. induction r as [|x r IH]; intros i a b N1 N2; [destruct i; discriminate|]. destruct r as [|y r]; [destruct i; discriminate|].
        destruct i as [|i]; [cbn in N1, N2; injection N1 as ->; injection N2 as ->; reflexivity|]. cbn [nth_error] in N1. cbn [map tl combine nth_error] in *. apply IH; auto. }
      rewrite EE in Eu. injection Eu as <- <-. auto. }
    destruct U as (-> & ->). unfold get. change (nth_error (k1 :: r) (S (S i))) with (nth_error r (S i)). change (nth_error (k1 :: r) (S i)) with (nth_error r i). rewrite N1, N2. cbn [bind].
    rewrite !point_corner; [reflexivity|..]; apply H; [right; eapply nth_error_In; eauto|right; eapply nth_error_In; eauto|left; auto].
Qed.
Lemma polygons_ok plc : ValidPLC3 plc -> to_polygons plc = Ok (map tripoly (triangles plc)).
Proof.
  intros (L & H). unfold to_polygons. rewrite (proj2 (Nat.leb_le _ _) L). cbn [assert bind].
  rewrite (mmap_ok _ (fun f => map tripoly (fan3 (map (corner (fst plc)) f)))) by (intros f I; destruct (H f I); apply facet_ok; auto).
  cbn [bind]. f_equal. unfold triangles. generalize (snd plc). intros fs. induction fs as [|f fs IH]; [reflexivity|]. cbn [map concat flat_map]. rewrite map_app, IH. reflexivity.
Qed.
Lemma triangles_some plc : ValidPLC3 plc -> triangles plc <> [].
Proof.
  intros (L & H) E. unfold triangles in E. destruct (snd plc) as [|f fs]; [cbn in L; lia|]. destruct (H f (or_introl eq_refl)) as (Lf & _). cbn [flat_map] in E. apply app_eq_nil in E as (E & _).
  destruct f as [|a [|b [|c r]]]; cbn [length] in Lf; try lia. discriminate E.
Qed.

(* ---- the tree of a convex solid ---- *)
Section Convex.
  Context (eps : Q) (E0 : 0 <= eps) (ts : list tri).
  Context (room : forall t t' v, In t ts -> In t' ts -> In v (corners3 t') -> beyond t v == 0 \/ beyond t v < - eps).
  Context (full : forall t, In t ts -> exists t' v, In t' ts /\ In v (corners3 t') /\ beyond t v < - eps).
  Lemma all_real t : In t ts -> Real t.
  Proof using All. intros I. destruct (full t I) as (t' & v & _ & _ & H). apply (real_of eps t v); auto. Qed.
  Definition back_of (l : plane) (t : tri) : bool := existsb (fun v => is_back (classify eps l v)) (corners3 t).
  Lemma split_tri t0 t : In t0 ts -> In t ts -> let l := pplane (tripoly t0) in let q := splitPolygon eps l (tripoly t) in
    front4 q = [] /\ back4 q = (if back_of l t then [tripoly t] else []) /\ (back_of l t = false -> forall v, In v (corners3 t) -> side l v == 0).
  Proof using All.
    intros I0 I l q. unfold q, splitPolygon. cbn [pverts tripoly mkpoly]. fold (tripoly t). fold (back_of l t).
    assert (R : forall v, In v (corners3 t) -> side l v == 0 \/ side l v < - eps) by (intros v Iv; unfold l; rewrite side_tri; apply (room t0 t); auto).
    destruct (exb (fun v => is_front (classify eps l v)) (corners3 t)) as [(-> & v & Iv & Hv)|(-> & _)].
    { exfalso. destruct (class_cases eps l v E0) as [(X&Y)|[(X&Y)|(X&Y)]]; rewrite X in Hv; try discriminate. destruct (R v Iv); lra. }
    destruct (back_of l t) eqn:B; cbn [front4 back4].
    - split; auto. split; auto. discriminate.
    - destruct (Qlt_bool 0 (dot3 (pnorm l) (pnorm (pplane (tripoly t))))); cbn [front4 back4]; split; auto; split; auto; intros _ v Iv; destruct (R v Iv) as [|X]; auto; exfalso;
        (destruct (exb (fun v => is_back (classify eps l v)) (corners3 t)) as [(Y & _)|(_ & Y)]; [unfold back_of in B; congruence|]); specialize (Y v Iv); cbn beta in Y;
        destruct (class_cases eps l v E0) as [(Z&?)|[(Z&?)|(Z&?)]]; rewrite Z in Y; try discriminate; lra.
  Qed.
  Lemma split_tris t0 us : In t0 ts -> (forall t, In t us -> In t ts) -> let l := pplane (tripoly t0) in
    fr4 eps l (map tripoly us) = [] /\ bk4 eps l (map tripoly us) = map tripoly (filter (back_of l) us).
  Proof using All.
    intros I0 H l. unfold fr4, bk4. induction us as [|u us IH]; [auto|]. cbn [map flat_map filter].
    destruct (split_tri t0 u I0) as (A & B & _); [apply H; left; auto|]. fold l in A, B. rewrite A, B. destruct IH as (P & R); [intros; apply H; right; auto|]. rewrite P, R.
    split; [reflexivity|]. destruct (back_of l u); reflexivity.
  Qed.
  Lemma self_back t0 : In t0 ts -> back_of (pplane (tripoly t0)) t0 = false.
  Proof using All.
    intros I0. unfold back_of. destruct (exb (fun v => is_back (classify eps (pplane (tripoly t0)) v)) (corners3 t0)) as [(_ & v & Iv & Hv)|(-> & _)]; auto. exfalso.
    destruct (class_cases eps (pplane (tripoly t0)) v E0) as [(X&Y)|[(X&Y)|(X&Y)]]; rewrite X in Hv; try discriminate. rewrite side_tri, beyond_dot, (corner_flat t0 v Iv) in Y. lra.
  Qed.
  Lemma filter_le {A} (f : A -> bool) l : (length (filter f l) <= length l)%nat.
  Proof. induction l as [|a l IH]; cbn; [lia|]. destruct (f a); cbn; lia. Qed.
  Definition Planes (us : list tri) (ls : list plane) : Prop :=
    (forall l, In l ls -> exists t, In t us /\ l = pplane (tripoly t)) /\
    (forall t, In t us -> exists l, In l ls /\ forall v, In v (corners3 t) -> side l v == 0).
  Lemma new_chain : forall fuel us, us <> [] -> (length us <= fuel)%nat -> (forall t, In t us -> In t ts) ->
    exists tr ls, build_new eps fuel (map tripoly us) = Ok tr /\ Chain ls tr /\ Planes us ls.
  Proof using All.
    induction fuel as [|fuel IH]; intros us N L H; [destruct us; [congruence|cbn in L; lia]|].
    destruct us as [|u us]; [congruence|]. assert (Iu : In u ts) by (apply H; left; auto). cbn [map build_new].
    change (tripoly u :: map tripoly us) with (map tripoly (u :: us)). set (l := pplane (tripoly u)). fold (fr4 eps l (map tripoly (u :: us))) (bk4 eps l (map tripoly (u :: us))).
    destruct (split_tris u (u :: us) Iu H) as (A & B). fold l in A, B. rewrite A, B. cbn [bind]. cbn [filter]. pose proof (self_back u Iu) as SBu. fold l in SBu. rewrite SBu.
    assert (CO : forall t, In t (u :: us) -> back_of l t = false -> forall v, In v (corners3 t) -> side l v == 0) by (intros t It; apply (split_tri u t Iu); auto).
    assert (OKl : plane_ok l = true) by (apply tri_ok; apply all_real; auto). cbn [length] in L.
    destruct (filter (back_of l) us) as [|w ws] eqn:EF.
    - cbn [map bind]. eexists. exists [l]. split; [reflexivity|]. split; [constructor; auto|]. split.
      + intros l' [<-|[]]. exists u. split; [left; auto|reflexivity].
      + intros t It. exists l. split; [left; auto|]. apply CO; auto. destruct It as [<-|It]; [apply self_back; auto|]. destruct (back_of l t) eqn:X; auto. assert (In t (filter (back_of l) us)) by (apply filter_In; auto). rewrite EF in *. contradiction.
    - pose proof (filter_le (back_of l) us) as LF. rewrite EF in LF.
      assert (SUB : forall t, In t (w :: ws) -> In t us /\ back_of l t = true) by (intros t; rewrite <- EF; apply filter_In).
      destruct (IH (w :: ws)) as (tr & ls & Etr & HC & P1 & P2); [discriminate|lia|intros t It; apply H; right; apply SUB; auto|].
      change (map tripoly (w :: ws)) with (tripoly w :: map tripoly ws) in Etr |- *. cbn beta iota. rewrite Etr. cbn [bind]. eexists. exists (l :: ls). split; [reflexivity|]. split; [constructor; auto|]. split.
      + intros l' [<-|I']; [exists u; split; [left; auto|reflexivity]|]. destruct (P1 l' I') as (t & It & ->). exists t. split; auto. right. apply SUB; auto.
      + intros t [<-|It]; [exists l; split; [left; auto|]; apply CO; [left; auto|apply self_back; auto]|]. destruct (back_of l t) eqn:X.
        * destruct (P2 t) as (l' & I' & Z); [rewrite <- EF; apply filter_In; auto|]. exists l'. split; [right; auto|auto].
        * exists l. split; [left; auto|]. apply CO; auto. right; auto.
  Qed.
  Lemma node_chain : ts <> [] -> exists tr ls, new_node eps (map tripoly ts) = Ok tr /\ Chain ls tr /\ Planes ts ls.
  Proof using All.
    intros N. unfold new_node.
    assert (NS : forall M s M', M = s :: M' -> build eps (Nd [] Null Null no_plane) M =
      do fr <- match fr4 eps (pplane s) M with [] => Ok Null | _ => build eps Null (fr4 eps (pplane s) M) end;
      do bk <- match bk4 eps (pplane s) M with [] => Ok Null | _ => build eps Null (bk4 eps (pplane s) M) end;
      Ok (Nd ([] ++ mids eps (pplane s) M) fr bk (pplane s))) by (intros M s M' ->; reflexivity).
    assert (X : exists u us, ts = u :: us) by (destruct ts as [|u us]; [congruence|eauto]). destruct X as (u & us & Ets).
    assert (Iu : In u ts) by (rewrite Ets; left; auto). rewrite (NS (map tripoly ts) (tripoly u) (map tripoly us)) by (rewrite Ets; reflexivity). clear NS. set (l := pplane (tripoly u)).
    destruct (split_tris u ts Iu (fun t I => I)) as (A & B). fold l in A, B. rewrite A, B. cbn [bind].
    assert (CO : forall t, In t ts -> back_of l t = false -> forall v, In v (corners3 t) -> side l v == 0) by (intros t It; apply (split_tri u t Iu); auto).
    assert (OKl : plane_ok l = true) by (apply tri_ok; apply all_real; auto).
    destruct (filter (back_of l) ts) as [|w ws] eqn:EF.
    - cbn [map bind]. eexists. exists [l]. split; [reflexivity|]. split; [constructor; auto|]. split.
      + intros l' [<-|[]]. exists u. split; [auto|reflexivity].
      + intros t It. exists l. split; [left; auto|]. apply CO; auto. destruct (back_of l t) eqn:X; auto. assert (In t (filter (back_of l) ts)) by (apply filter_In; auto). rewrite EF in *. contradiction.
    - assert (SUB : forall t, In t (w :: ws) -> In t ts /\ back_of l t = true) by (intros t; rewrite <- EF; apply filter_In).
      destruct (new_chain (length (map tripoly (w :: ws))) (w :: ws)) as (tr & ls & Etr & HC & P1 & P2); [discriminate|rewrite map_length; lia|intros t It; apply SUB; auto|].
      cbn [map] in Etr |- *. cbn [build]. rewrite Etr. cbn [bind]. eexists. exists (l :: ls). split; [reflexivity|]. split; [constructor; auto|]. split.
      + intros l' [<-|I']; [exists u; split; [auto|reflexivity]|]. destruct (P1 l' I') as (t & It & ->). exists t. split; auto. apply SUB; auto.
      + intros t It. destruct (back_of l t) eqn:X.
        * destruct (P2 t) as (l' & I' & Z); [rewrite <- EF; apply filter_In; auto|]. exists l'. split; [right; auto|auto].
        * exists l. split; [left; auto|]. apply CO; auto.
  Qed.
  (* a triangle on the plane of another one faces the same way *)
  Lemma same_way t t2 : In t ts -> In t2 ts -> (forall v, In v (corners3 t) -> beyond t2 v == 0) -> exists k, 0 < k /\ forall x, beyond t x == k * beyond t2 x.
  Proof using All.
    intros I I2 H. pose proof (all_real t2 I2) as R2. set (n2 := normal3 t2) in *. unfold Real in R2. fold n2 in R2.
    assert (Hv : forall v, In v (corners3 t) -> dotn n2 v == dotn n2 (apex t2)) by (intros v Iv; specialize (H v Iv); rewrite beyond_dot in H; unfold n2; lra).
    destruct t as ((a & b) & c). pose proof (Hv a (or_introl eq_refl)) as Ha. pose proof (Hv b (or_intror (or_introl eq_refl))) as Hb. pose proof (Hv c (or_intror (or_intror (or_introl eq_refl)))) as Hc.
    set (k := turn n2 a b c / dotn n2 n2).
    assert (NK : forall i, C i (normal3 (a, b, c)) == k * C i n2).
    { intros i. assert (Eb : dotn n2 b == dotn n2 a) by (rewrite Hb, Ha; reflexivity). assert (Ec : dotn n2 c == dotn n2 a) by (rewrite Hc, Ha; reflexivity). pose proof (cross_along n2 a b c i R2 Eb Ec) as X. fold k in X. rewrite <- X. clear. destruct i as [|[|i]]; unfold normal3, cross3; cbn [fst snd]; coords; ring. }
    assert (BK : forall x, beyond (a, b, c) x == k * beyond t2 x).
    { intros x. rewrite !beyond_dot. fold n2. rewrite <- Ha. unfold apex. cbn [fst]. rewrite !dotn_C, !NK. ring. }
    exists k. split; auto. destruct (full (a, b, c) I) as (t' & v & It' & Iv & Hn). rewrite BK in Hn. destruct (room t2 t' v I2 It' Iv) as [Z|Z].
    - rewrite Z in Hn. lra.
    - destruct (Qlt_le_dec 0 k); auto. nra.
  Qed.
End Convex.

Record SolidTree (eps : Q) (ts : list tri) (tr : tree) (ls : list plane) : Prop := {
  st_from : From ts (allPolygons tr);
  st_cov : forall x, Cov (allPolygons tr) x <-> exists t, In t ts /\ Combination3 (corners3 t) x;
  st_chain : Chain ls tr;
  st_plane : forall l, In l ls -> exists t, In t ts /\ forall x, side l x == beyond t x;
  st_all : forall t, In t ts -> exists l k, In l ls /\ 0 < k /\ forall x, beyond t x == k * side l x }.
Lemma solid_tree eps plc : 0 <= eps -> Solid eps plc ->
  exists tr ls, (do ps <- to_polygons plc; new_node eps ps) = Ok tr /\ SolidTree eps (triangles plc) tr ls.
Proof.
  intros E0 [V R F]. set (ts := triangles plc) in *. assert (RE : forall t, In t ts -> Real t) by (intros t It; destruct (F t It) as (? & v & _ & _ & X); apply (real_of eps t v); auto).
  rewrite (polygons_ok plc V). cbn [bind]. fold ts. destruct (node_chain eps E0 ts R F (triangles_some plc V)) as (tr & ls & E & HC & P1 & P2).
  assert (FT : From ts (map tripoly ts)) by (intros p Ip; apply in_map_iff in Ip as (t & <- & It); exists t; split; auto; split; auto; apply tri_pp; auto).
  destruct (new_node_ok eps E0 ts (map tripoly ts) FT) as (tr' & E' & F' & C'). rewrite E in E'. injection E' as <-.
  exists tr, ls. split; auto. constructor; auto.
  - intros x. rewrite C'. unfold Cov. split.
    + intros (p & Ip & H). apply in_map_iff in Ip as (t & <- & It). exists t. split; auto. apply cov_tri; auto.
    + intros (t & It & H). exists (tripoly t). split; [apply in_map; auto|apply cov_tri; auto].
  - intros l Il. destruct (P1 l Il) as (t & It & ->). exists t. split; auto. intros x. apply side_tri.
  - intros t It. destruct (P2 t It) as (l & Il & Z). destruct (P1 l Il) as (t2 & It2 & ->).
    destruct (same_way eps E0 ts R F t t2 It It2) as (k & K & B); [intros v Iv; rewrite <- side_tri; auto|]. exists (pplane (tripoly t2)), k. split; auto. split; auto. intros x. rewrite side_tri. auto.
Qed.

Section Ops.
  Context (eps : Q) (E0 : 0 <= eps) (TA TB : list tri).
  Definition ClearT (ts : list tri) (x : p3) : Prop := forall t, In t ts -> eps < beyond t x \/ beyond t x < - eps.
  Definition OutT (ts : list tri) (x : p3) : Prop := exists t, In t ts /\ 0 < beyond t x.
  Definition InT (ts : list tri) (x : p3) : Prop := forall t, In t ts -> beyond t x < 0.
  Definition OnT (ts : list tri) (x : p3) : Prop := exists t, In t ts /\ Combination3 (corners3 t) x.
  Lemma clear_gen ts tr ls x : SolidTree eps ts tr ls -> ClearT ts x -> Gen eps ls x /\ Gen eps (map pflip ls) x.
  Proof using All.
    intros S H. split.
    - intros l Il. destruct (st_plane _ _ _ _ S l Il) as (t & It & X). unfold high, low. rewrite X. auto.
    - intros l' Il. apply in_map_iff in Il as (l & <- & Il). destruct (st_plane _ _ _ _ S l Il) as (t & It & X). unfold high, low. rewrite side_flip, X. destruct (H t It); [right|left]; lra.
  Qed.
  Lemma out_chain ts tr ls x : SolidTree eps ts tr ls -> ClearT ts x -> (exists l, In l ls /\ high eps l x) <-> OutT ts x.
  Proof using All.
    intros S H. split.
    - intros (l & Il & Hx). destruct (st_plane _ _ _ _ S l Il) as (t & It & X). exists t. split; auto. unfold high in Hx. rewrite X in Hx. lra.
    - intros (t & It & Hx). destruct (st_all _ _ _ _ S t It) as (l & k & Il & K & X). exists l. split; auto. rewrite X in Hx.
      destruct (proj1 (clear_gen ts tr ls x S H) l Il) as [Y|Y]; auto. unfold low in Y. exfalso. assert (side l x < 0) by lra. nra.
  Qed.
  Lemma in_ichain ts tr ls x : SolidTree eps ts tr ls -> ClearT ts x -> (forall l, In l (map pflip ls) -> high eps l x) <-> InT ts x.
  Proof using All.
    intros S H. split.
    - intros HX t It. destruct (st_all _ _ _ _ S t It) as (l & k & Il & K & X). rewrite X. specialize (HX (pflip l) (in_map pflip _ _ Il)). unfold high in HX. rewrite side_flip in HX. assert (side l x < 0) by lra. nra.
    - intros HI l' Il. apply in_map_iff in Il as (l & <- & Il). destruct (st_plane _ _ _ _ S l Il) as (t & It & X). unfold high. rewrite side_flip, X. specialize (HI t It). destruct (H t It); lra.
  Qed.
  (* a tree with the planes of a solid, as it is or inside out, clips any list *)
  Lemma clip_out ts tr ls T o x : SolidTree eps ts tr ls -> Chain ls o -> ClearT ts x -> forall L, From T L -> Cov (clipPolygons eps o L) x <-> Cov L x /\ OutT ts x.
  Proof using All. intros S HC H L F. rewrite (clip_chain eps E0 T ls o HC L x F) by apply (clear_gen ts tr ls x S H). rewrite (out_chain ts tr ls x S H). reflexivity. Qed.
  Lemma clip_in ts tr ls T o x : SolidTree eps ts tr ls -> IChain (map pflip ls) o -> ClearT ts x -> forall L, From T L -> Cov (clipPolygons eps o L) x <-> Cov L x /\ InT ts x.
  Proof using All. intros S HC H L F. rewrite (clip_ichain eps E0 T _ o HC L x F) by apply (clear_gen ts tr ls x S H). rewrite (in_ichain ts tr ls x S H). reflexivity. Qed.
  Lemma clear_off ts x : ClearT ts x -> ~ OnT ts x.
  Proof using All.
    intros H (t & It & HC). assert (B : beyond t x == 0).
    { apply comb_hull in HC. assert (E : beyond t x == affine (X3 (normal3 t)) (Y3 (normal3 t)) (Z3 (normal3 t)) (- dotn (normal3 t) (apex t)) x) by (rewrite beyond_dot; unfold dotn, affine; ring).
      rewrite E. apply hull_eq with (S := fun p => In p (corners3 t)); auto. intros q Iq. pose proof (corner_flat t q Iq) as X. unfold dotn, affine in *. lra. }
    destruct (H t It); lra.
  Qed.
  Context (a b : tree) (la lb : list plane) (SA : SolidTree eps TA a la) (SB : SolidTree eps TB b lb).
  (* what an operation should give: KA and KB tell which parts of the two surfaces stay *)
  Definition Gives (r : res tree) (T : list tri) (KA KB : p3 -> Prop) : Prop :=
    exists tr, r = Ok tr /\ From T (allPolygons tr) /\
      (forall x, ClearT TB x -> (Cov (allPolygons tr) x <-> OnT TA x /\ KA x)) /\
      (forall x, ClearT TA x -> (Cov (allPolygons tr) x <-> OnT TB x /\ KB x)).
  Lemma union_gives : Gives (tree_union eps a b) (TA ++ TB) (OutT TB) (OutT TA).
  Proof using All.
    unfold tree_union. pose proof (st_from _ _ _ _ SA) as FA. pose proof (st_from _ _ _ _ SB) as FB. pose proof (st_chain _ _ _ _ SA) as CA. pose proof (st_chain _ _ _ _ SB) as CB.
    set (a1 := clipTo eps a b). destruct (clipTo_from eps E0 TA a b FA) as (FA1 & UA1). fold a1 in FA1, UA1.
    assert (XA1 : forall x, ClearT TB x -> Cov (allPolygons a1) x <-> Cov (allPolygons a) x /\ OutT TB x) by (intros x Hx; apply (clipTo_cov eps E0 TA); auto; apply (clip_out TB b lb); auto).
    assert (CA1 : Chain la a1) by (apply clipTo_chain; auto). clearbody a1.
    set (b1 := clipTo eps b a1). destruct (clipTo_from eps E0 TB b a1 FB) as (FB1 & UB1). fold b1 in FB1, UB1.
    assert (XB1 : forall x, ClearT TA x -> Cov (allPolygons b1) x <-> Cov (allPolygons b) x /\ OutT TA x) by (intros x Hx; apply (clipTo_cov eps E0 TB); auto; apply (clip_out TA a la); auto). clearbody b1.
    set (b2 := invert b1). assert (FB2 : From (map reverse3 TB) (allPolygons b2)) by (apply invert_from; auto). assert (XB2 : forall x, Cov (allPolygons b2) x <-> Cov (allPolygons b1) x) by (intros x; apply invert_cov). clearbody b2.
    set (b3 := clipTo eps b2 a1). destruct (clipTo_from eps E0 _ b2 a1 FB2) as (FB3 & UB3). fold b3 in FB3, UB3.
    assert (XB3 : forall x, ClearT TA x -> Cov (allPolygons b3) x <-> Cov (allPolygons b2) x /\ OutT TA x) by (intros x Hx; apply (clipTo_cov eps E0 (map reverse3 TB)); auto; apply (clip_out TA a la); auto). clearbody b3.
    set (b4 := invert b3). assert (FB4 : From TB (allPolygons b4)) by (rewrite <- (rev_rev TB); apply invert_from; auto). assert (XB4 : forall x, Cov (allPolygons b4) x <-> Cov (allPolygons b3) x) by (intros x; apply invert_cov). clearbody b4.
    destruct (build_ok eps E0 (TA ++ TB) a1 (allPolygons b4)) as (r & -> & FR & XR); [apply (from_mono TA); auto; intros; apply in_or_app; auto|apply (from_mono TB); auto; intros; apply in_or_app; auto|].
    cbn [bind]. destruct (new_node_ok eps E0 (TA ++ TB) (allPolygons r) FR) as (n & -> & FN & XN). exists n. split; auto. split; auto. split; intros x Hx; rewrite XN, XR.
    - rewrite (XA1 x Hx), (st_cov _ _ _ _ SA x). fold (OnT TA x). split; [intros [X|X]; auto|auto]. exfalso. apply (clear_off TB x Hx). apply (st_cov _ _ _ _ SB x). rewrite XB4 in X. apply UB3 in X. rewrite XB2 in X. auto.
    - rewrite XB4, (XB3 x Hx), XB2, (XB1 x Hx), (st_cov _ _ _ _ SB x). fold (OnT TB x). split; [intros [X|X]; [|tauto]|tauto]. exfalso. apply (clear_off TA x Hx). apply (st_cov _ _ _ _ SA x). auto.
  Qed.
  Lemma intersect_gives : Gives (tree_intersect eps a b) (TA ++ TB) (InT TB) (InT TA).
  Proof using All.
    unfold tree_intersect. pose proof (st_from _ _ _ _ SA) as FA. pose proof (st_from _ _ _ _ SB) as FB. pose proof (st_chain _ _ _ _ SA) as CA. pose proof (st_chain _ _ _ _ SB) as CB.
    set (a0 := invert a). assert (FA0 : From (map reverse3 TA) (allPolygons a0)) by (apply invert_from; auto). assert (XA0 : forall x, Cov (allPolygons a0) x <-> Cov (allPolygons a) x) by (intros x; apply invert_cov).
    assert (CA0 : IChain (map pflip la) a0) by (apply invert_chain; auto). clearbody a0.
    set (b1 := clipTo eps b a0). destruct (clipTo_from eps E0 TB b a0 FB) as (FB1 & UB1). fold b1 in FB1, UB1.
    assert (XB1 : forall x, ClearT TA x -> Cov (allPolygons b1) x <-> Cov (allPolygons b) x /\ InT TA x) by (intros x Hx; apply (clipTo_cov eps E0 TB); auto; apply (clip_in TA a la); auto).
    assert (CB1 : Chain lb b1) by (apply clipTo_chain; auto). clearbody b1.
    set (b2 := invert b1). assert (FB2 : From (map reverse3 TB) (allPolygons b2)) by (apply invert_from; auto). assert (XB2 : forall x, Cov (allPolygons b2) x <-> Cov (allPolygons b1) x) by (intros x; apply invert_cov).
    assert (CB2 : IChain (map pflip lb) b2) by (apply invert_chain; auto). clearbody b2.
    set (a1 := clipTo eps a0 b2). destruct (clipTo_from eps E0 _ a0 b2 FA0) as (FA1 & UA1). fold a1 in FA1, UA1.
    assert (XA1 : forall x, ClearT TB x -> Cov (allPolygons a1) x <-> Cov (allPolygons a0) x /\ InT TB x) by (intros x Hx; apply (clipTo_cov eps E0 (map reverse3 TA)); auto; apply (clip_in TB b lb); auto).
    assert (CA1 : IChain (map pflip la) a1) by (apply clipTo_ichain; auto). clearbody a1.
    set (b3 := clipTo eps b2 a1). destruct (clipTo_from eps E0 _ b2 a1 FB2) as (FB3 & UB3). fold b3 in FB3, UB3.
    assert (XB3 : forall x, ClearT TA x -> Cov (allPolygons b3) x <-> Cov (allPolygons b2) x /\ InT TA x) by (intros x Hx; apply (clipTo_cov eps E0 (map reverse3 TB)); auto; apply (clip_in TA a la); auto). clearbody b3.
    destruct (build_ok eps E0 (map reverse3 (TA ++ TB)) a1 (allPolygons b3)) as (r & -> & FR & XR); [apply (from_mono (map reverse3 TA)); auto; intros; rewrite map_app; apply in_or_app; auto|apply (from_mono (map reverse3 TB)); auto; intros; rewrite map_app; apply in_or_app; auto|].
    cbn [bind]. set (r' := invert r). assert (FR' : From (TA ++ TB) (allPolygons r')) by (rewrite <- (rev_rev (TA ++ TB)); apply invert_from; auto). assert (XR' : forall x, Cov (allPolygons r') x <-> Cov (allPolygons r) x) by (intros x; apply invert_cov). clearbody r'.
    destruct (new_node_ok eps E0 (TA ++ TB) (allPolygons r') FR') as (n & -> & FN & XN). exists n. split; auto. split; auto. split; intros x Hx; rewrite XN, XR', XR.
    - rewrite (XA1 x Hx), XA0, (st_cov _ _ _ _ SA x). fold (OnT TA x). split; [intros [X|X]; auto|auto]. exfalso. apply (clear_off TB x Hx). apply (st_cov _ _ _ _ SB x). apply UB3 in X. rewrite XB2 in X. auto.
    - rewrite (XB3 x Hx), XB2, (XB1 x Hx), (st_cov _ _ _ _ SB x). fold (OnT TB x). split; [intros [X|X]; [|tauto]|tauto]. exfalso. apply (clear_off TA x Hx). apply (st_cov _ _ _ _ SA x). apply XA0. auto.
  Qed.
  Lemma subtract_gives : Gives (tree_subtract eps a b) (TA ++ map reverse3 TB) (OutT TB) (InT TA).
  Proof using All.
    unfold tree_subtract. pose proof (st_from _ _ _ _ SA) as FA. pose proof (st_from _ _ _ _ SB) as FB. pose proof (st_chain _ _ _ _ SA) as CA. pose proof (st_chain _ _ _ _ SB) as CB.
    set (a0 := invert a). assert (FA0 : From (map reverse3 TA) (allPolygons a0)) by (apply invert_from; auto). assert (XA0 : forall x, Cov (allPolygons a0) x <-> Cov (allPolygons a) x) by (intros x; apply invert_cov).
    assert (CA0 : IChain (map pflip la) a0) by (apply invert_chain; auto). clearbody a0.
    set (a1 := clipTo eps a0 b). destruct (clipTo_from eps E0 _ a0 b FA0) as (FA1 & UA1). fold a1 in FA1, UA1.
    assert (XA1 : forall x, ClearT TB x -> Cov (allPolygons a1) x <-> Cov (allPolygons a0) x /\ OutT TB x) by (intros x Hx; apply (clipTo_cov eps E0 (map reverse3 TA)); auto; apply (clip_out TB b lb); auto).
    assert (CA1 : IChain (map pflip la) a1) by (apply clipTo_ichain; auto). clearbody a1.
    set (b1 := clipTo eps b a1). destruct (clipTo_from eps E0 TB b a1 FB) as (FB1 & UB1). fold b1 in FB1, UB1.
    assert (XB1 : forall x, ClearT TA x -> Cov (allPolygons b1) x <-> Cov (allPolygons b) x /\ InT TA x) by (intros x Hx; apply (clipTo_cov eps E0 TB); auto; apply (clip_in TA a la); auto). clearbody b1.
    set (b2 := invert b1). assert (FB2 : From (map reverse3 TB) (allPolygons b2)) by (apply invert_from; auto). assert (XB2 : forall x, Cov (allPolygons b2) x <-> Cov (allPolygons b1) x) by (intros x; apply invert_cov). clearbody b2.
    set (b3 := clipTo eps b2 a1). destruct (clipTo_from eps E0 _ b2 a1 FB2) as (FB3 & UB3). fold b3 in FB3, UB3.
    assert (XB3 : forall x, ClearT TA x -> Cov (allPolygons b3) x <-> Cov (allPolygons b2) x /\ InT TA x) by (intros x Hx; apply (clipTo_cov eps E0 (map reverse3 TB)); auto; apply (clip_in TA a la); auto). clearbody b3.
    set (b4 := invert b3). assert (FB4 : From TB (allPolygons b4)) by (rewrite <- (rev_rev TB); apply invert_from; auto). assert (XB4 : forall x, Cov (allPolygons b4) x <-> Cov (allPolygons b3) x) by (intros x; apply invert_cov). clearbody b4.
    destruct (build_ok eps E0 (map reverse3 TA ++ TB) a1 (allPolygons b4)) as (r & -> & FR & XR); [apply (from_mono (map reverse3 TA)); auto; intros; apply in_or_app; auto|apply (from_mono TB); auto; intros; apply in_or_app; auto|].
    cbn [bind]. set (r' := invert r). assert (FR' : From (TA ++ map reverse3 TB) (allPolygons r')) by (rewrite <- (rev_rev TA), <- map_app; apply invert_from; auto). assert (XR' : forall x, Cov (allPolygons r') x <-> Cov (allPolygons r) x) by (intros x; apply invert_cov). clearbody r'.
    destruct (new_node_ok eps E0 (TA ++ map reverse3 TB) (allPolygons r') FR') as (n & -> & FN & XN). exists n. split; auto. split; auto. split; intros x Hx; rewrite XN, XR', XR.
    - rewrite (XA1 x Hx), XA0, (st_cov _ _ _ _ SA x). fold (OnT TA x). split; [intros [X|X]; auto|auto]. exfalso. apply (clear_off TB x Hx). apply (st_cov _ _ _ _ SB x). rewrite XB4 in X. apply UB3 in X. rewrite XB2 in X. auto.
    - rewrite XB4, (XB3 x Hx), XB2, (XB1 x Hx), (st_cov _ _ _ _ SB x). fold (OnT TB x). split; [intros [X|X]; [|tauto]|tauto]. exfalso. apply (clear_off TA x Hx). apply (st_cov _ _ _ _ SA x). apply XA0. auto.
  Qed.
End Ops.
