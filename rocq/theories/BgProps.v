(* C91: union, intersection and difference of boundaries by Boost.Geometry; C92: clipping;
   C93: the union of many. *)
From Verif Require Import Base BaseFacts SerializeModel PLCSpec Plane MeshEditorModel WithinModel WithinSpec WithinProofs WithinProofs2 WithinProofs3 BgModel BgSpec BgProofs.
From Coq Require Import QArith Lqa Permutation.
Local Open Scope nat_scope.

(* ------------------------------------------------------------ C91 *)
(* For boundaries whose facets go round in order, as long as no piece of the answer has a hole. *)
Theorem boost_op_partial : forall f op lib a b, Corrects lib -> Loops a -> Loops b ->
  (forall A B, PolygonOf a A -> PolygonOf b B -> op A B <> [] /\ Forall (GoodPolygon lib) (op A B) /\ Forall (fun c => inners c = []) (op A B) /\ Combines f A B (op A B)) ->
  (forall P P' Q Q', (P <-> P') -> (Q <-> Q') -> (f P Q <-> f P' Q')) ->
  exists rs, boost_op op lib a b = Ok rs /\ Forall (fun r => Loops r /\ rholes r = []) rs /\
    forall q, OffPLC a q -> OffPLC b q -> Forall (fun r => OffPLC r q) rs ->
      ((exists r, In r rs /\ InsidePLC r q) <-> f (InsidePLC a q) (InsidePLC b q)).
Proof.
  intros f op lib a b C La Lb H Ext. destruct (to_polygon_loops lib a C La) as (A & EA & PA). destruct (to_polygon_loops lib b C Lb) as (B & EB & PB). destruct (H A B PA PB) as (N & G & I & Cm).
  destruct (from_polygons_ok lib (op A B) G I) as (rs & E & F). exists rs. unfold boost_op. rewrite EA. cbn [bind]. rewrite EB. cbn [bind]. split; [destruct (op A B); [congruence|cbn [negb assert bind]; exact E]|].
  split; [clear - F; induction F; constructor; tauto|]. intros q Oa Ob Os. destruct (polygon_inside a A q PA) as [Ia Oa']. destruct (polygon_inside b B q PB) as [Ib Ob'].
  rewrite (Ext _ (Inside A q) _ (Inside B q)) by auto. rewrite <- (Cm q); [|apply Oa'; auto|apply Ob'; auto|].
  - clear - F. split.
    + intros (r & Ir & Hq). destruct (Forall2_in_r _ _ _ _ F Ir) as (c & Ic & P & _). exists c. split; auto. apply (polygon_inside r c q P); auto.
    + intros (c & Ic & Hq). destruct (Forall2_in_l _ _ _ _ F Ic) as (r & Ir & P & _). exists r. split; auto. apply (polygon_inside r c q P); auto.
  - clear - F Os. induction F as [|c r cs rs (P & _) F IH]; constructor; inversion Os; subst; auto. apply (polygon_inside r c q P); auto.
Qed.
Print Assumptions boost_op_partial.
Definition minus (P Q : Prop) : Prop := P /\ ~ Q.
Theorem boost_union_partial : forall lib a b, Corrects lib -> Loops a -> Loops b ->
  (forall A B, PolygonOf a A -> PolygonOf b B -> union_ lib A B <> [] /\ Forall (GoodPolygon lib) (union_ lib A B) /\ Forall (fun c => inners c = []) (union_ lib A B) /\ Combines or A B (union_ lib A B)) ->
  exists rs, boost_union lib a b = Ok rs /\ Forall (fun r => Loops r /\ rholes r = []) rs /\
    forall q, OffPLC a q -> OffPLC b q -> Forall (fun r => OffPLC r q) rs -> ((exists r, In r rs /\ InsidePLC r q) <-> InsidePLC a q \/ InsidePLC b q).
Proof. intros. apply (boost_op_partial or); auto. tauto. Qed.
Print Assumptions boost_union_partial.
Theorem boost_intersect_partial : forall lib a b, Corrects lib -> Loops a -> Loops b ->
  (forall A B, PolygonOf a A -> PolygonOf b B -> intersection lib A B <> [] /\ Forall (GoodPolygon lib) (intersection lib A B) /\ Forall (fun c => inners c = []) (intersection lib A B) /\ Combines and A B (intersection lib A B)) ->
  exists rs, boost_intersect lib a b = Ok rs /\ Forall (fun r => Loops r /\ rholes r = []) rs /\
    forall q, OffPLC a q -> OffPLC b q -> Forall (fun r => OffPLC r q) rs -> ((exists r, In r rs /\ InsidePLC r q) <-> InsidePLC a q /\ InsidePLC b q).
Proof. intros. apply (boost_op_partial and); auto. tauto. Qed.
Print Assumptions boost_intersect_partial.
Theorem boost_subtract_partial : forall lib a b, Corrects lib -> Loops a -> Loops b ->
  (forall A B, PolygonOf a A -> PolygonOf b B -> difference lib A B <> [] /\ Forall (GoodPolygon lib) (difference lib A B) /\ Forall (fun c => inners c = []) (difference lib A B) /\ Combines minus A B (difference lib A B)) ->
  exists rs, boost_subtract lib a b = Ok rs /\ Forall (fun r => Loops r /\ rholes r = []) rs /\
    forall q, OffPLC a q -> OffPLC b q -> Forall (fun r => OffPLC r q) rs -> ((exists r, In r rs /\ InsidePLC r q) <-> InsidePLC a q /\ ~ InsidePLC b q).
Proof. intros. apply (boost_op_partial minus); auto. unfold minus. tauto. Qed.
Print Assumptions boost_subtract_partial.
(* A point is within a boundary, and boundaries intersect, as the library says of the same rings. *)
Theorem boost_tests_partial : forall lib a b p, Corrects lib -> Loops a -> Loops b ->
  (forall A q, OffPolygon A q -> (within lib q A = true <-> Inside A q)) -> OffPLC a p ->
  (exists w, boost_within lib p a = Ok w /\ (w = true <-> InsidePLC a p)) /\
  (exists A B, PolygonOf a A /\ PolygonOf b B /\ boost_intersects lib a b = Ok (intersects lib A B) /\ boost_self_intersects lib a = Ok (self_intersects lib A)).
Proof.
  intros lib a b p C La Lb W O. destruct (to_polygon_loops lib a C La) as (A & EA & PA). destruct (to_polygon_loops lib b C Lb) as (B & EB & PB). destruct (polygon_inside a A p PA) as [Ia Oa]. split.
  - exists (within lib p A). unfold boost_within. rewrite EA. split; auto. rewrite Ia. apply W. apply Oa; auto.
  - exists A, B. unfold boost_intersects, boost_self_intersects. rewrite EA, EB. auto.
Qed.
Print Assumptions boost_tests_partial.

(* An answer with a hole stops the program. *)
Theorem boost_hole_refuted : forall op lib a b, Corrects lib -> Loops a -> Loops b ->
  (forall A B, PolygonOf a A -> PolygonOf b B -> Forall (GoodPolygon lib) (op A B) /\ Exists (fun c => inners c <> []) (op A B)) ->
  boost_op op lib a b = Abort.
Proof.
  intros op lib a b C La Lb H. destruct (to_polygon_loops lib a C La) as (A & EA & PA). destruct (to_polygon_loops lib b C Lb) as (B & EB & PB). destruct (H A B PA PB) as (G & E).
  unfold boost_op. rewrite EA. cbn [bind]. rewrite EB. cbn [bind]. rewrite from_polygons_hole by auto. destruct (op A B); reflexivity.
Qed.
Print Assumptions boost_hole_refuted.
(* So does an empty answer, for example to the intersection of two regions that are apart. *)
Theorem boost_empty_refuted : forall op lib a b, Corrects lib -> Loops a -> Loops b ->
  (forall A B, PolygonOf a A -> PolygonOf b B -> op A B = []) -> boost_op op lib a b = Abort.
Proof.
  intros op lib a b C La Lb H. destruct (to_polygon_loops lib a C La) as (A & EA & PA). destruct (to_polygon_loops lib b C Lb) as (B & EB & PB).
  unfold boost_op. rewrite EA. cbn [bind]. rewrite EB. cbn [bind]. rewrite (H A B PA PB). reflexivity.
Qed.
Print Assumptions boost_empty_refuted.

(* Facets listed in another order are read as another polygon: a square, of which the library
   is asked about a bow tie. *)
Definition shuffled : rplc Q := mkRPLC [[0; 1]; [2; 3]; [1; 2]; [3; 0]]%Z [] [0; 0; 2; 0; 2; 2; 0; 2]%Q.
Theorem boost_order_refuted : exists p, OffPLC shuffled p /\ InsidePLC shuffled p /\
  forall lib, Corrects lib -> (forall A q, OffPolygon A q -> (within lib q A = true <-> Inside A q)) -> boost_within lib p shuffled = Ok false.
Proof.
  exists (1 # 4, 1)%Q.
  assert (S : Sides shuffled [((0, 0), (2, 0)); ((2, 2), (0, 2)); ((2, 0), (2, 2)); ((0, 2), (0, 0))]%Q).
  { unfold Sides, shuffled. cbn [rfacets rholes rpoints concat app]. repeat (constructor; [unfold Side; do 2 eexists; split; [reflexivity|]; unfold pt_at; cbn; repeat split; discriminate||reflexivity|]). constructor. }
  destruct (inside_sides _ _ (1 # 4, 1)%Q S) as [I O]. split; [|split].
  - apply O. repeat constructor; intros (t & B & E1 & E2); unfold along in *; cbn [fst snd] in *; lra.
  - apply I. reflexivity.
  - intros lib C W. unfold boost_within, to_polygon, shuffled. cbn [rfacets rholes rpoints].
    set (ps := [(0, 0); (2, 0); (0, 2); (2, 2); (0, 0)]%Q). assert (E : to_ring [0; 0; 2; 0; 2; 2; 0; 2]%Q [[0; 1]; [2; 3]; [1; 2]; [3; 0]]%Z = Ok ps) by reflexivity. rewrite E. cbn [bind mmap length Nat.eqb assert]. f_equal.
    destruct (C (mkPolygon ps [])) as [T F]. cbn [outer inners] in T, F. set (c := correct lib (mkPolygon ps [])) in *. assert (Fi : inners c = []) by (inversion F; auto). apply (turned_same (1 # 4, 1)%Q) in T as [T1 T2].
    destruct (within lib (1 # 4, 1)%Q c) eqn:Ew; auto. exfalso. apply W in Ew.
    + apply inside_iff in Ew. unfold psides in Ew. rewrite Fi in Ew. cbn [flat_map] in Ew. rewrite app_nil_r, <- T1 in Ew. discriminate.
    + unfold OffPolygon, psides. rewrite Fi. cbn [flat_map]. rewrite app_nil_r. apply T2. unfold ps, steps. cbn [tl combine]. repeat constructor; intros (t & B & E1 & E2); unfold along in *; cbn [fst snd] in *; lra.
Qed.
Print Assumptions boost_order_refuted.

(* ------------------------------------------------------------ C92 *)
(* If the point is in one piece of the intersection only. *)
Theorem boost_clip_partial : forall lib a b p orphans, Corrects lib -> Uniques lib -> Loops a -> Loops b ->
  (forall A B, PolygonOf a A -> PolygonOf b B ->
     Forall (GoodPolygon lib) (intersection lib A B) /\ Forall (fun c => inners c = []) (intersection lib A B) /\ Combines and A B (intersection lib A B) /\
     (forall c, In c (intersection lib A B) -> (covered_by lib p c = true <-> Touches c p)) /\
     exists l1 c l2, intersection lib A B = l1 ++ c :: l2 /\ Touches c p /\ Forall (fun c => ~ Touches c p) (l1 ++ l2)) ->
  exists r os, boost_clip lib a b p orphans = Ok (r, orphans ++ os) /\ Forall (fun s => Loops s /\ rholes s = []) (r :: os) /\
    (InsidePLC r p \/ ~ OffPLC r p) /\
    forall q, OffPLC a q -> OffPLC b q -> Forall (fun s => OffPLC s q) (r :: os) ->
      (InsidePLC r q \/ (exists s, In s os /\ InsidePLC s q) <-> InsidePLC a q /\ InsidePLC b q).
Proof.
  intros lib a b p orphans C U La Lb H. destruct (to_polygon_loops lib a C La) as (A & EA & PA). destruct (to_polygon_loops lib b C Lb) as (B & EB & PB). destruct (H A B PA PB) as (G & I & Cm & Cv & l1 & c & l2 & E & T & N). clear H.
  rewrite Forall_forall in G, I, N. assert (Ic : In c (intersection lib A B)) by (rewrite E; apply in_or_app; right; left; auto).
  assert (Gr : forall c, In c (intersection lib A B) -> GoodRing (outer c)) by (intros x Ix; apply G; auto).
  destruct (clip_finish lib c C U (Gr c Ic) (I c Ic)) as (r & Er & Lr & Hr & Sr).
  assert (Away : forall x, In x (l1 ++ l2) -> (covered_by lib p x = true <-> Touches x p) /\ ~ Touches x p /\ GoodRing (outer x) /\ inners x = []).
  { intros x Ix. assert (Ix' : In x (intersection lib A B)) by (rewrite E; apply in_or_app; apply in_app_or in Ix as [Ix|Ix]; [left|right; right]; auto). auto. }
  assert (Fold : exists os, boost_clip lib a b p orphans = Ok (r, orphans ++ os) /\ Forall2 (fun c r => PolygonOf r c /\ Loops r /\ rholes r = []) (l1 ++ l2) os).
  { unfold boost_clip. rewrite EA. cbn [bind]. rewrite EB. cbn [bind]. cbv zeta. rewrite (proj2 (Nat.ltb_lt 0 _)) by (rewrite E, app_length; cbn; lia). cbn [assert bind].
    set (cs := intersection lib A B) in *.
    destruct (clip_all lib p cs l1 [] (c :: l2) (length cs) orphans E) as (rs1 & E1 & F1); [intros; apply Away; apply in_or_app; auto|].
    destruct (clip_all lib p cs l2 (l1 ++ [c]) [] (length l1) (orphans ++ rs1)) as (rs2 & E2 & F2); [rewrite E, <- app_assoc, app_nil_r; reflexivity|intros; apply Away; apply in_or_app; auto|].
    destruct (match l1 ++ l2 with [] => true | _ => false end) eqn:One.
    - assert (l1 = [] /\ l2 = []) as [-> ->] by (apply app_eq_nil; destruct (l1 ++ l2); [auto|discriminate]). cbn [app] in E. rewrite E. cbn [bind]. rewrite Er. cbn [bind]. exists []. rewrite app_nil_r. split; auto. constructor.
    - assert (M : mfold (clip_step lib p cs) (seq 0 (length cs)) (length cs, orphans) = Ok (length l1, (orphans ++ rs1) ++ rs2)).
      { replace (length cs) with (length l1 + S (length l2)) at 1 by (rewrite E, app_length; reflexivity). rewrite seq_app, mfold_app. cbn [Nat.add] in *. cbn [length] in E1. rewrite E1. cbn [bind seq mfold].
        rewrite (clip_covered lib p cs _ _ _ c); [|rewrite E, nth_error_app2, Nat.sub_diag by lia; auto|apply Cv; auto]. cbn [bind]. rewrite app_length in E2. cbn [length] in E2. rewrite Nat.add_1_r in E2. exact E2. }
      exists (rs1 ++ rs2). split; [|apply Forall2_app; auto].
      assert (Rest : (do (k, os) <- mfold (clip_step lib p cs) (seq 0 (length cs)) (length cs, orphans); do _ <- assert (k <? length cs); do c <- get cs k; Ok (c, os)) = Ok (c, orphans ++ rs1 ++ rs2)).
      { rewrite M. cbn [bind]. rewrite (proj2 (Nat.ltb_lt _ _)) by (rewrite E, app_length; cbn; lia). cbn [assert bind]. rewrite (proj2 (get_ok cs (length l1) c)) by (rewrite E, nth_error_app2, Nat.sub_diag by lia; auto). cbn [bind]. rewrite <- app_assoc. auto. }
      unfold clip_step in Rest. destruct cs as [|c1 [|c2 cs']].
      + destruct l1; discriminate.
      + exfalso. destruct l1 as [|? [|? ?]]; cbn in E; injection E; intros; subst; try discriminate.
      + rewrite Rest. cbn [bind]. rewrite Er. cbn [bind]. reflexivity. }
  destruct Fold as (os & Eo & F). exists r, os. split; auto. split; [constructor; auto; clear - F; induction F; constructor; tauto|]. split; [destruct (Sr p) as [S1 S2]; rewrite S1, S2; exact T|].
  intros q Oa Ob Os. destruct (polygon_inside a A q PA) as [Ia Oa']. destruct (polygon_inside b B q PB) as [Ib Ob']. rewrite Ia, Ib, <- (Cm q); [|apply Oa'; auto|apply Ob'; auto|].
  - rewrite (proj1 (Sr q)). rewrite E. split.
    + intros [Hc|(s & Is & Hs)]; [exists c; split; auto; apply in_or_app; right; left; auto|]. destruct (Forall2_in_r _ _ _ _ F Is) as (x & Ix & P & _). exists x. split; [apply in_or_app; apply in_app_or in Ix as [Ix|Ix]; [left|right; right]; auto|]. apply (polygon_inside s x q P); auto.
    + intros (x & Ix & Hx). apply in_app_or in Ix as [Ix|[<-|Ix]]; [right|left; auto|right]; (destruct (Forall2_in_l _ _ _ x F) as (s & Is & P & _); [apply in_or_app; auto|]; exists s; split; auto; apply (polygon_inside s x q P); auto).
  - rewrite E. inversion Os as [|? ? Or Oo]; subst. assert (All : Forall (fun c => OffPolygon c q) (l1 ++ l2)). { clear - F Oo. induction F as [|x s l ss (P & _) F IH]; constructor; inversion Oo; subst; auto. apply (polygon_inside s x q P); auto. }
    apply Forall_app in All as [All1 All2]. apply Forall_app. split; auto. constructor; auto. apply (Sr q); auto.
Qed.
Print Assumptions boost_clip_partial.

(* Two L shaped regions that have two squares in common, which meet in one corner. *)
Definition ell1_corners : list p2 := [(0, 0); (2, 0); (2, 2); (1, 2); (1, 1); (0, 1)]%Q.
Definition ell2_corners : list p2 := [(0, 0); (1, 0); (1, 1); (2, 1); (2, 2); (0, 2)]%Q.
Definition lower_corners : list p2 := [(0, 0); (1, 0); (1, 1); (0, 1)]%Q.
Definition upper_corners : list p2 := [(1, 1); (2, 1); (2, 2); (1, 2)]%Q.
Definition ell1 : rplc Q := mkRPLC [[0; 1]; [1; 2]; [2; 3]; [3; 4]; [4; 5]; [5; 0]]%Z [] [0; 0; 2; 0; 2; 2; 1; 2; 1; 1; 0; 1]%Q.
Definition ell2 : rplc Q := mkRPLC [[0; 1]; [1; 2]; [2; 3]; [3; 4]; [4; 5]; [5; 0]]%Z [] [0; 0; 1; 0; 1; 1; 2; 1; 2; 2; 0; 2]%Q.
Definition lower : polygon := mkPolygon (closed lower_corners) [].
Definition upper : polygon := mkPolygon (closed upper_corners) [].
(* a library that does right by them; around (1/2, 1/2) and (1, 1) it knows what they cover *)
Definition ells_library : library := mkLibrary (fun c => c) (fun c => c) (fun a b => [a; b]) (fun _ _ => [lower; upper]) (fun a _ => [a])
  (fun cs c => cs ++ [c]) (fun _ _ => false)
  (fun p c => if same_point p (1 # 2, 1 # 2)%Q then same_point (hd (0, 0)%Q (outer c)) (0, 0)%Q else true) (fun _ _ => true) (fun _ => false).

Lemma vertical u v x y0 y1 : crossing (u, v) (x, y0) (x, y1) = xorb (Qlt_bool v y0) (Qlt_bool v y1) && Qlt_bool u x.
Proof. unfold crossing. cbn [fst snd]. f_equal. apply qltb_ext. unfold Qdiv. split; intros H; lra. Qed.
Lemma level q x0 x1 y : crossing q (x0, y) (x1, y) = false.
Proof. apply crossing_no. reflexivity. Qed.
Ltac xp_axis := unfold xp; cbn [ring combine app map par fst snd]; rewrite ?level, ?vertical.
Lemma loop_ell1 : Loop (rpoints ell1) (rfacets ell1) ell1_corners.
Proof. split; [cbn; lia|]. unfold ell1, ell1_corners. cbn [ring combine app rpoints rfacets]. repeat (constructor; [unfold Side; do 2 eexists; split; [reflexivity|]; unfold pt_at; cbn; repeat split; discriminate||reflexivity|]). constructor. Qed.
Lemma loop_ell2 : Loop (rpoints ell2) (rfacets ell2) ell2_corners.
Proof. split; [cbn; lia|]. unfold ell2, ell2_corners. cbn [ring combine app rpoints rfacets]. repeat (constructor; [unfold Side; do 2 eexists; split; [reflexivity|]; unfold pt_at; cbn; repeat split; discriminate||reflexivity|]). constructor. Qed.
Lemma ells_common q : xp q (ring ell1_corners) && xp q (ring ell2_corners) = xp q (ring lower_corners) || xp q (ring upper_corners).
Proof.
  destruct q as [u v]. unfold ell1_corners, ell2_corners, lower_corners, upper_corners. xp_axis.
  destruct (qltb_spec u 0), (qltb_spec u 1), (qltb_spec u 2), (qltb_spec v 0), (qltb_spec v 1), (qltb_spec v 2); try reflexivity; exfalso; lra.
Qed.
Lemma one_loop r c ps : rholes r = [] -> Loop (rpoints r) (rfacets r) ps -> PolygonOf r c -> forall q, Inside c q <-> xp q (ring ps) = true.
Proof.
  intros H L P q. destruct (polygon_inside r c q P) as [I _]. rewrite <- I. apply inside_sides. unfold Sides. rewrite H. cbn [concat]. rewrite app_nil_r. apply L.
Qed.
Lemma inside_closed ps q : Inside (mkPolygon (closed ps) []) q <-> xp q (ring ps) = true.
Proof. rewrite inside_iff. unfold psides. cbn [outer inners flat_map]. rewrite app_nil_r, closed_steps. tauto. Qed.
Lemma ells_combine A B : PolygonOf ell1 A -> PolygonOf ell2 B -> Combines and A B [lower; upper].
Proof.
  intros PA PB q _ _ _. rewrite (one_loop ell1 A _ eq_refl loop_ell1 PA), (one_loop ell2 B _ eq_refl loop_ell2 PB). rewrite <- andb_true_iff, ells_common, orb_true_iff. split.
  - intros (c & [<-|[<-|[]]] & Hq); apply inside_closed in Hq; auto.
  - intros [Hq|Hq]; [exists lower|exists upper]; (split; [cbn; auto|apply inside_closed; auto]).
Qed.
Lemma ells_good : Forall (GoodPolygon ells_library) [lower; upper] /\ Forall (fun c => inners c = []) [lower; upper].
Proof. split; repeat constructor; [exists lower_corners|exists upper_corners]; split; auto; cbn; lia. Qed.
Lemma ells_lib : Corrects ells_library /\ Uniques ells_library.
Proof.
  split.
  - intros c. cbn [correct ells_library]. split; [left; auto|]. induction (inners c); constructor; auto. left; auto.
  - intros c G I. cbn [unique ells_library]. split; auto. split; auto. intros q. tauto.
Qed.
Lemma ells_loops : Loops ell1 /\ Loops ell2.
Proof. split; (split; [|constructor]); [exists ell1_corners; apply loop_ell1|exists ell2_corners; apply loop_ell2]. Qed.
(* the hypotheses of the intersection and of the clipping are met *)
Example ells_intersect : exists rs, boost_intersect ells_library ell1 ell2 = Ok rs /\
  forall q, OffPLC ell1 q -> OffPLC ell2 q -> Forall (fun r => OffPLC r q) rs -> ((exists r, In r rs /\ InsidePLC r q) <-> InsidePLC ell1 q /\ InsidePLC ell2 q).
Proof.
  destruct (boost_intersect_partial ells_library ell1 ell2) as (rs & E & _ & H); try apply ells_lib; try apply ells_loops; [|exists rs; auto].
  intros A B PA PB. split; [discriminate|]. split; [apply ells_good|]. split; [apply ells_good|apply ells_combine; auto].
Qed.
Lemma not_off ps q : ~ Touches (mkPolygon (closed ps) []) q <-> xp q (ring ps) = false /\ ~ ~ Forall (OffSide q) (ring ps).
Proof.
  unfold Touches. rewrite inside_closed. unfold OffPolygon, psides. cbn [outer inners flat_map]. rewrite app_nil_r, closed_steps. destruct (xp q (ring ps)); split; intros H; [exfalso; apply H; auto|destruct H; discriminate|split; auto|intros [X|X]; [discriminate|tauto]].
Qed.
Lemma lower_touches : Touches lower (1 # 2, 1 # 2)%Q /\ ~ Touches upper (1 # 2, 1 # 2)%Q.
Proof.
  split; [left; apply inside_closed; reflexivity|]. apply not_off. split; [reflexivity|]. intros N. apply N. unfold upper_corners. cbn [ring combine app]. repeat constructor; intros (t & B & E1 & E2); unfold along in *; cbn [fst snd] in *; lra.
Qed.
Lemma both_touch : Touches lower (1, 1)%Q /\ Touches upper (1, 1)%Q.
Proof.
  split; [apply (corner_touches lower _ lower_corners eq_refl eq_refl)|apply (corner_touches upper _ upper_corners eq_refl eq_refl)]; reflexivity.
Qed.
Example ells_clip : exists r os, boost_clip ells_library ell1 ell2 (1 # 2, 1 # 2)%Q [] = Ok (r, os) /\ InsidePLC r (1 # 2, 1 # 2)%Q /\ length os = 1.
Proof.
  exists (made lower_corners), [made upper_corners]. split; [vm_compute; reflexivity|]. split; [|reflexivity].
  apply (polygon_inside _ lower); [apply made_polygon; auto; cbn; lia|]. apply inside_closed. reflexivity.
Qed.
Example ells_clip_conditions : forall A B, PolygonOf ell1 A -> PolygonOf ell2 B -> let lib := ells_library in let p := (1 # 2, 1 # 2)%Q in
     Forall (GoodPolygon lib) (intersection lib A B) /\ Forall (fun c => inners c = []) (intersection lib A B) /\ Combines and A B (intersection lib A B) /\
     (forall c, In c (intersection lib A B) -> (covered_by lib p c = true <-> Touches c p)) /\
     exists l1 c l2, intersection lib A B = l1 ++ c :: l2 /\ Touches c p /\ Forall (fun c => ~ Touches c p) (l1 ++ l2).
Proof.
  intros A B PA PB lib p. destruct lower_touches as [T N]. split; [apply ells_good|]. split; [apply ells_good|]. split; [apply ells_combine; auto|]. split.
  - intros c [<-|[<-|[]]]; split; intros H; [exact T|reflexivity|discriminate|contradiction].
  - exists [], lower, [upper]. split; auto. split; auto. constructor; auto.
Qed.

(* A point in two pieces: one of them is in the result, the other is lost, for every library that
   does right by the two regions. *)
Theorem boost_clip_refuted : exists a b p q, Loops a /\ Loops b /\ InsidePLC a q /\ InsidePLC b q /\
  (exists lib, Corrects lib /\ Uniques lib /\ (forall A B, PolygonOf a A -> PolygonOf b B -> Combines and A B (intersection lib A B) /\ intersection lib A B = [lower; upper]) /\ forall c, In c [lower; upper] -> (covered_by lib p c = true <-> Touches c p)) /\
  forall lib orphans, Corrects lib -> Uniques lib -> (forall A B, PolygonOf a A -> PolygonOf b B -> intersection lib A B = [lower; upper]) ->
    (forall c, In c [lower; upper] -> (covered_by lib p c = true <-> Touches c p)) ->
    exists r, boost_clip lib a b p orphans = Ok (r, orphans) /\ ~ InsidePLC r q.
Proof.
  exists ell1, ell2, (1, 1)%Q, (1 # 2, 1 # 2)%Q. destruct both_touch as [T1 T2]. split; [apply ells_loops|]. split; [apply ells_loops|].
  split; [apply (inside_sides ell1 (ring ell1_corners)); [apply loop_ell1|reflexivity]|]. split; [apply (inside_sides ell2 (ring ell2_corners)); [apply loop_ell2|reflexivity]|]. split.
  - exists ells_library. split; [apply ells_lib|]. split; [apply ells_lib|]. split; [intros A B PA PB; split; auto; apply ells_combine; auto|]. intros c Ic. split; [|reflexivity]. intros _. destruct Ic as [<-|[<-|[]]]; auto.
  - intros lib os C U In_ Cv. destruct (to_polygon_loops lib ell1 C (proj1 ells_loops)) as (A & EA & PA). destruct (to_polygon_loops lib ell2 C (proj2 ells_loops)) as (B & EB & PB).
    destruct (clip_finish lib upper C U) as (r & Er & _ & _ & Sr); [exists upper_corners; split; auto; cbn; lia|reflexivity|]. exists r. split.
    + unfold boost_clip. rewrite EA. cbn [bind]. rewrite EB. cbn [bind]. rewrite (In_ A B PA PB). cbv zeta. change (0 <? length [lower; upper]) with true. cbn [assert bind].
      assert (M : mfold (clip_step lib (1, 1)%Q [lower; upper]) [0; 1] (2, os) = Ok (1, os)).
      { cbn [mfold]. rewrite (clip_covered lib _ _ 2 os 0 lower); [|reflexivity|apply Cv; cbn; auto]. cbn [bind]. rewrite (clip_covered lib _ _ 0 os 1 upper); [reflexivity|reflexivity|apply Cv; cbn; auto]. }
      unfold clip_step in M. change (seq 0 (length [lower; upper])) with [0; 1]. change (length [lower; upper]) with 2. rewrite M. cbn [bind].
      change (1 <? 2) with true. cbn [assert bind get nth_error]. rewrite Er. reflexivity.
    + intros H. apply (Sr (1 # 2, 1 # 2)%Q) in H. apply inside_closed in H. discriminate.
Qed.
Print Assumptions boost_clip_refuted.

(* ------------------------------------------------------------ C93 *)
Lemma unites_fold lib a : Corrects lib -> Unites lib -> Forall Loops a -> forall cs0, Forall (fun c => GoodRing (outer c)) cs0 -> forall cs,
  mfold (fun cs r => do p <- to_polygon lib r; Ok (map (correct lib) (multi_union lib cs p))) a cs0 = Ok cs ->
  Forall (fun c => GoodRing (outer c)) cs /\
  forall q, Forall (fun c => OffPolygon c q) cs0 -> Forall (fun r => OffPLC r q) a ->
    Forall (fun c => OffPolygon c q) cs /\ ((exists c, In c cs /\ Inside c q) <-> (exists c, In c cs0 /\ Inside c q) \/ (exists r, In r a /\ InsidePLC r q)).
Proof.
  intros C [U1 U2] L. induction L as [|r a Lr L IH]; intros cs0 G cs E.
  - cbn in E. injection E as <-. split; auto. intros q O _. split; auto. split; [auto|]. intros [H|(r & [] & _)]; auto.
  - cbn [mfold] in E. destruct (to_polygon_loops lib r C Lr) as (P & EP & PP). rewrite EP in E. cbn [bind] in E.
    assert (Gp : GoodRing (outer P)) by (destruct PP as [(ps & Lp & T) _]; eapply turned_closed; eauto; apply Lp).
    assert (Cq : forall c q, (Inside (correct lib c) q <-> Inside c q) /\ (OffPolygon (correct lib c) q <-> OffPolygon c q)).
    { intros c q. destruct (C c) as [T F]. rewrite !inside_iff. unfold OffPolygon, psides. cbn [flat_map]. rewrite !xp_app, !Forall_app. destruct (turned_same q _ _ T) as [X1 X2]. rewrite <- X1, <- X2.
      assert (X : xp q (flat_map steps (inners (correct lib c))) = xp q (flat_map steps (inners c)) /\ (Forall (OffSide q) (flat_map steps (inners (correct lib c))) <-> Forall (OffSide q) (flat_map steps (inners c)))).
      { clear - F. induction F as [|x y l m T F IH]; [tauto|]. cbn [flat_map]. rewrite !xp_app, !Forall_app. destruct (turned_same q _ _ T) as [X1 X2]. rewrite <- X1, <- X2. destruct IH as [-> IH]. tauto. }
      destruct X as [-> X]. rewrite X. tauto. }
    destruct (IH (map (correct lib) (multi_union lib cs0 P))) with (cs := cs) as [G' H]; auto.
    { rewrite Forall_forall. intros x Ix. apply in_map_iff in Ix as (c & <- & Ic). pose proof (U2 cs0 P G Gp) as Gm. rewrite Forall_forall in Gm. destruct (Gm c Ic) as (ps & Lp & O). destruct (C c) as [T _]. rewrite O in T. eapply turned_closed; eauto. }
    split; auto. intros q O Oa. inversion Oa as [|? ? Or Oa']; subst. destruct (polygon_inside r P q PP) as [Ir Or']. destruct (U1 cs0 P q O) as [U3 U4]; [apply Or'; auto|].
    destruct (H q) as [H1 H2]; auto. { rewrite Forall_forall. intros x Ix. apply in_map_iff in Ix as (c & <- & Ic). apply Cq. rewrite Forall_forall in U3. auto. } split; auto.
    rewrite H2. assert (M : (exists c, In c (map (correct lib) (multi_union lib cs0 P)) /\ Inside c q) <-> (exists c, In c (multi_union lib cs0 P) /\ Inside c q)).
    { split; [intros (x & Ix & Hx); apply in_map_iff in Ix as (c & <- & Ic); exists c; split; auto; apply Cq; auto|intros (c & Ic & Hc); exists (correct lib c); split; [apply in_map; auto|apply Cq; auto]]. }
    rewrite M, U4, <- Ir. split.
    + intros [[X|X]|(s & Is & X)]; [auto|right; exists r; cbn; auto|right; exists s; cbn; auto].
    + intros [X|(s & [<-|Is] & X)]; [auto|auto|right; exists s; auto].
Qed.
(* When the union of many boundaries returns, it is their union, with no more pieces than boundaries. *)
Theorem boost_reduce_partial : forall lib a rs, Corrects lib -> Unites lib -> Forall Loops a -> boost_unionReduce lib a = Ok rs ->
  rs <> [] /\ length rs <= length a /\ Forall (fun r => Loops r /\ rholes r = []) rs /\
  forall q, Forall (fun r => OffPLC r q) a -> Forall (fun r => OffPLC r q) rs /\ ((exists r, In r rs /\ InsidePLC r q) <-> (exists r, In r a /\ InsidePLC r q)).
Proof.
  intros lib a rs C U L H. unfold boost_unionReduce in H. apply bind_ok in H as (cs & Ec & H). apply bind_ok in H as ([] & A1 & H). apply bind_ok in H as ([] & A2 & H). apply bind_ok in H as (rs' & Er & H). apply bind_ok in H as ([] & A3 & H). apply bind_ok in H as ([] & A4 & H). injection H as ->.
  apply assert_ok in A1, A2, A3, A4. destruct (unites_fold lib a C U L [] (Forall_nil _) cs Ec) as [G Q]. split; [intros ->; discriminate|]. split; [apply Nat.leb_le; auto|].
  assert (F : Forall2 (fun c r => PolygonOf r c /\ Loops r /\ rholes r = []) cs rs).
  { apply mmap_inv in Er. clear - G Er. induction Er as [|c r cs rs E Er IH]; constructor; inversion G; subst; auto. apply bind_ok in E as (b & _ & E). apply bind_ok in E as ([] & _ & E). apply bind_ok in E as ([] & _ & E). pose proof (from_ok _ _ E) as I. destruct H1 as (ps & Lp & O). rewrite (from_good c ps Lp O I) in E. injection E as <-. split; [apply made_polygon; auto|]. split; [apply made_loops; auto|auto]. }
  split; [clear - F; induction F; constructor; tauto|]. intros q O. destruct (Q q (Forall_nil _) O) as [Oc Ic]. split.
  - clear - F Oc. induction F as [|c r cs rs (P & _) F IH]; constructor; inversion Oc; subst; auto. apply (polygon_inside r c q P); auto.
  - assert (X : (exists r, In r rs /\ InsidePLC r q) <-> (exists c, In c cs /\ Inside c q)).
    { split.
      - intros (r & Ir & Hq). destruct (Forall2_in_r _ _ _ _ F Ir) as (c & Ix & P & _). exists c. split; auto. apply (polygon_inside r c q P); auto.
      - intros (c & Ix & Hq). destruct (Forall2_in_l _ _ _ _ F Ix) as (r & Ir & P & _). exists r. split; auto. apply (polygon_inside r c q P); auto. }
    rewrite X, Ic. split; [intros [(c & [] & _)|?]; auto|auto].
Qed.
Print Assumptions boost_reduce_partial.
(* And it does return when uniting the polygons one after the other leaves between one piece and as many as
   there are boundaries, all without holes: as many pieces as the library found. *)
Definition united (lib : library) (ps : list polygon) : list polygon :=
  fold_left (fun cs p => map (correct lib) (multi_union lib cs p)) ps [].
Theorem boost_reduce_returns : forall lib a, Corrects lib -> Forall Loops a ->
  (forall ps, Forall2 PolygonOf a ps -> united lib ps <> [] /\ length (united lib ps) <= length a /\
     Forall (GoodPolygon lib) (united lib ps) /\ Forall (fun c => inners c = []) (united lib ps)) ->
  exists rs ps, boost_unionReduce lib a = Ok rs /\ Forall2 PolygonOf a ps /\ length rs = length (united lib ps).
Proof.
  intros lib a C L H.
  assert (K : forall a cs0, Forall Loops a -> exists ps, Forall2 PolygonOf a ps /\
     mfold (fun cs r => do p <- to_polygon lib r; Ok (map (correct lib) (multi_union lib cs p))) a cs0 = Ok (fold_left (fun cs p => map (correct lib) (multi_union lib cs p)) ps cs0)).
  { clear - C. induction a as [|r a IH]; intros cs0 L; [exists []; split; auto|]. inversion L as [|? ? L1 L2]; subst. destruct (to_polygon_loops lib r C L1) as (P & EP & PP).
    destruct (IH (map (correct lib) (multi_union lib cs0 P)) L2) as (ps & F & E). exists (P :: ps). split; [constructor; auto|]. cbn [mfold fold_left]. rewrite EP. cbn [bind]. exact E. }
  destruct (K a [] L) as (ps & F & E). destruct (H ps F) as (N & Le & G & I). fold (united lib ps) in E. destruct (from_polygons_ok lib _ G I) as (rs & Er & Fr). exists rs, ps.
  assert (Lr : length rs = length (united lib ps)) by (clear - Fr; induction Fr; cbn; auto).
  split; [|auto]. unfold boost_unionReduce. rewrite E. cbn [bind]. assert (Nn : negb (match united lib ps with [] => true | _ => false end) = true) by (destruct (united lib ps); auto; congruence). rewrite Nn. cbn [assert bind].
  apply Nat.leb_le in Le. rewrite Le. cbn [assert bind]. rewrite Er. cbn [bind]. assert (Nr : negb (match rs with [] => true | _ => false end) = true) by (destruct rs; auto; destruct (united lib ps); cbn in Lr; congruence). rewrite Nr. cbn [assert bind]. rewrite Lr, Le. reflexivity.
Qed.
Print Assumptions boost_reduce_returns.
(* No boundaries at all stop the program instead of giving no pieces. *)
Theorem boost_reduce_empty_refuted : forall lib, boost_unionReduce lib [] = Abort.
Proof. reflexivity. Qed.
Print Assumptions boost_reduce_empty_refuted.
(* Two boundaries are enough for a hole, which stops the program. *)
Theorem boost_reduce_hole_refuted : forall lib a b, Corrects lib -> Loops a -> Loops b ->
  (forall A B, PolygonOf a A -> PolygonOf b B -> exists c, map (correct lib) (multi_union lib (map (correct lib) (multi_union lib [] A)) B) = [c] /\ GoodPolygon lib c /\ inners c <> []) ->
  boost_unionReduce lib [a; b] = Abort.
Proof.
  intros lib a b C La Lb H. destruct (to_polygon_loops lib a C La) as (A & EA & PA). destruct (to_polygon_loops lib b C Lb) as (B & EB & PB). destruct (H A B PA PB) as (c & E & G & I).
  unfold boost_unionReduce. cbn [mfold]. rewrite EA. cbn [bind]. rewrite EB. cbn [bind]. rewrite E. cbn [negb assert bind length Nat.leb]. rewrite from_polygons_hole; auto.
Qed.
Print Assumptions boost_reduce_hole_refuted.
Example two_ells : Corrects ells_library /\ Unites ells_library /\ exists rs, boost_unionReduce ells_library [ell1; ell2] = Ok rs /\ length rs = 2.
Proof.
  split; [apply ells_lib|]. split.
  - split; cbn [multi_union ells_library].
    + intros cs p q O Op. split; [apply Forall_app; split; auto|]. split.
      * intros (c & Ic & Hc). apply in_app_or in Ic as [Ic|[<-|[]]]; [left; exists c; auto|auto].
      * intros [(c & Ic & Hc)|Hp]; [exists c|exists p]; split; auto; apply in_or_app; cbn; auto.
    + intros cs p G Gp. apply Forall_app. split; auto.
  - eexists. split; [vm_compute; reflexivity|reflexivity].
Qed.
(* a square taken out of the middle of another one *)
Definition hole_library : library := mkLibrary (fun c => c) (fun c => c) (fun a b => [a; b]) (fun _ b => [b])
  (fun _ _ => [mkPolygon (closed [(0, 0); (3, 0); (3, 3); (0, 3)]%Q) [closed [(1, 1); (1, 2); (2, 2); (2, 1)]%Q]])
  (fun cs c => cs ++ [c]) (fun _ _ => false) (fun _ _ => true) (fun _ _ => true) (fun _ => false).
Definition square_of (x d : Q) : rplc Q := mkRPLC [[0; 1]; [1; 2]; [2; 3]; [3; 0]]%Z [] [x; x; x + d; x; x + d; x + d; x; x + d]%Q.
Example hole_cut : boost_subtract hole_library (square_of 0 3) (square_of 1 1) = Abort.
Proof.
  apply boost_hole_refuted.
  - intros c. split; [left; auto|]. cbn [correct hole_library]. induction (inners c); constructor; auto. left; auto.
  - split; [|constructor]. exists [(0, 0); (0 + 3, 0); (0 + 3, 0 + 3); (0, 0 + 3)]%Q. split; [cbn; lia|]. unfold square_of. cbn [ring combine app rpoints rfacets]. repeat (constructor; [unfold Side; do 2 eexists; split; [reflexivity|]; unfold pt_at; cbn; repeat split; discriminate||reflexivity|]). constructor.
  - split; [|constructor]. exists [(1, 1); (1 + 1, 1); (1 + 1, 1 + 1); (1, 1 + 1)]%Q. split; [cbn; lia|]. unfold square_of. cbn [ring combine app rpoints rfacets]. repeat (constructor; [unfold Side; do 2 eexists; split; [reflexivity|]; unfold pt_at; cbn; repeat split; discriminate||reflexivity|]). constructor.
  - intros A B _ _. cbn [difference hole_library]. split; [|constructor; discriminate]. repeat constructor; [exists [(0, 0); (3, 0); (3, 3); (0, 3)]%Q|exists [(1, 1); (1, 2); (2, 2); (2, 1)]%Q]; split; auto; cbn; lia.
Qed.
