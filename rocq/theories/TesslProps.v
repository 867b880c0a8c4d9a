(* C103: tessellating through the C interface. *)
From Coq Require Import String.
From Verif Require Import Base BaseFacts SerializeModel MeshModel CTessModel CTessSpec CTessProps TesslModel TesslSpec TesslProofs.
From Verif Require CPlcModel CPlcSpec CPlcProps.
From Coq Require Import Lia.

(* After any history of calls, tessellating with a handle that was not freed is exactly calling the C++
   tessellator it was made for with the first num_points points of the array (and the first
   num_plc_points points of the boundary, and the PLC that was built), and copying what it gives; and the
   queries answer for that tessellator.  In particular a handle does not depend on what else was made,
   freed, cleared or tessellated. *)
Theorem tessl_calls {V} zn D0 D (c : cpp V) l a m w : run zn D0 l = Ok (m, w) -> Held zn D0 l D c a ->
  (forall points n, D * n <= List.length points ->
     tessUnbounded zn m a points n w = (do t <- unbounded c (firstn (D * n) points); fillC zn D t w)) /\
  (forall points n low high, D * n <= List.length points ->
     tessInBox zn m a points n low high w = (do t <- inBox c (firstn (D * n) points) low high; fillC zn D t w)) /\
  (forall points n pp k h p, D * n <= List.length points -> D * k <= List.length pp -> CPlcModel.fillCpp (Z.of_nat D) h = Ok p ->
     tessInPlc zn m a points n pp k h w = (do t <- inPlc c (firstn (D * n) points) (firstn (D * k) pp) p; fillC zn D t w)) /\
  tesslDimension m a = Ok D /\ tesslHandles m a = Ok (handlesPLCs c) /\ tesslDegeneracy m a = Ok (degeneracy c) /\
  exists m', tesslFree m a = Ok m' /\ fields m' a = UB.
Proof.
  intros R H. pose proof (run_ghost zn D0 l m w R) as ->.
  assert (D23 : D = 2 \/ D = 3). { destruct H as (l1 & x & l2 & m1 & w1 & _ & [(-> & _)|(-> & _)] & _); auto. }
  destruct (held_ghost zn D0 l D c a _ w R H) as (k & -> & G). pose proof (fields_at _ k D c G) as F. pose proof (deref_at _ k D c G) as De.
  assert (Vc : forall (p : list V) n, n <= List.length p -> vector p n = Ok (firstn n p)). { intros p n L. unfold vector. apply Nat.leb_le in L. rewrite L. reflexivity. }
  split; [|split; [|split; [|split; [|split; [|split]]]]].
  - intros points n L. unfold tessUnbounded. rewrite F. destruct D23 as [-> | ->]; cbn [Nat.eqb bind fst snd notNull assert]; rewrite (Vc _ _ L); cbn [bind]; rewrite De; reflexivity.
  - intros points n low high L. unfold tessInBox. rewrite F. destruct D23 as [-> | ->]; cbn [Nat.eqb bind fst snd notNull assert]; rewrite (Vc _ _ L); cbn [bind]; rewrite De; reflexivity.
  - intros points n pp j h p L L' P. unfold tessInPlc. rewrite F. destruct D23 as [-> | ->]; cbn [Nat.eqb bind fst snd notNull assert]; rewrite (Vc _ _ L), (Vc _ _ L'); cbn [bind];
      [change 2%Z with (Z.of_nat 2)|change 3%Z with (Z.of_nat 3)]; rewrite P; cbn [bind]; rewrite De; reflexivity.
  - unfold tesslDimension. rewrite F. destruct D23 as [-> | ->]; reflexivity.
  - unfold tesslHandles. rewrite F. destruct D23 as [-> | ->]; cbn [Nat.eqb bind fst snd notNull]; rewrite De; reflexivity.
  - unfold tesslDegeneracy. rewrite F. destruct D23 as [-> | ->]; cbn [Nat.eqb bind fst snd notNull]; rewrite De; reflexivity.
  - eexists. split; [apply (free_at _ k D c G)|]. apply fields_gone. eapply upd_same; eauto.
Qed.
Print Assumptions tessl_calls.

(* The memory: using a handle in any way after it was freed is undefined behaviour, and at the end nothing
   is left of the handles exactly when each that was made was freed. *)
Theorem tessl_freed {V} zn D0 (l : list (@step V)) m w : run zn D0 l = Ok (m, w) ->
  (forall D c a, Dropped zn D0 l D c a ->
     tesslFree m a = UB /\ tesslDimension m a = UB /\ tesslHandles m a = UB /\ tesslDegeneracy m a = UB /\
     (forall points n, tessUnbounded zn m a points n w = UB) /\ (forall points n low high, tessInBox zn m a points n low high w = UB) /\
     (forall points n pp k h, tessInPlc zn m a points n pp k h w = UB)) /\
  (Gone m <-> forall D c a, ~ Held zn D0 l D c a).
Proof.
  intros R. pose proof (run_ghost zn D0 l m w R) as E. split.
  - intros D c a H. destruct (dropped_ghost zn D0 l D c a _ w R H) as (k & -> & G). subst m. pose proof (fields_gone _ k G) as F.
    unfold tesslFree, tesslDimension, tesslHandles, tesslDegeneracy, tessUnbounded, tessInBox, tessInPlc. rewrite F. cbn [bind]. repeat split.
  - subst m. split.
    + intros N D c a H. destruct (held_ghost zn D0 l D c a _ w R H) as (k & -> & G). destruct (layout_nth (ghost l) k) as [_ N1]. rewrite G in N1. apply (N _ _ N1).
    + intros N a o Q.
      assert (K : exists k D c, nth_error (ghost l) k = Some (Some (D, c))).
      { destruct (Nat.even a) eqn:Ev.
        - apply Nat.even_spec in Ev as (k & ->). exists k. destruct (layout_nth (ghost l) k) as [N0 _]. rewrite N0 in Q. destruct (nth_error (ghost l) k) as [[[D c]|]|]; cbn in Q; try discriminate; eauto.
        - assert (O : Nat.odd a = true) by (unfold Nat.odd; rewrite Ev; auto). apply Nat.odd_spec in O as (k & ->). exists k. rewrite Nat.add_1_r in Q. destruct (layout_nth (ghost l) k) as [_ N0]. rewrite N0 in Q.
          destruct (nth_error (ghost l) k) as [[[D c]|]|]; cbn in Q; try discriminate; eauto. }
      destruct K as (k & D & c & G). apply (N D c (2 * k)). apply (ghost_held zn D0 l _ w k D c R G).
Qed.
Print Assumptions tessl_freed.

(* the C tessellation was filled and cleared only, with tessellations of the right kind *)
Lemma run_acts {V} zn D : forall (l : list (@step V)) m w, Uniform D l -> run zn D l = Ok (m, w) ->
  exists acts, (forall u, In (Fill u) acts -> Shaped D u /\ faces u <> []) /\ (do w <- tessNew D; mfold (act zn D) acts w) = Ok w.
Proof.
  induction l as [|x l IH] using rev_ind; intros m w U R.
  - exists []. split; [intros u []|]. unfold run in R. apply bind_ok in R as (w0 & T & R). cbn in R. injection R as _ <-. apply bind_ok. exists w0. auto.
  - pose proof R as R0. apply run_split in R as (m1 & w1 & R1 & R). cbn [mfold] in R. apply bind_ok in R as (s & S1 & E). injection E as ->.
    destruct (IH m1 w1) as (acts & F & A); auto. { intros y c D' I M. apply (U y c D'); auto. apply in_or_app. auto. }
    assert (ADD : forall b, act zn D w1 b = Ok w -> (forall u, b = Fill u -> Shaped D u /\ faces u <> []) ->
       exists acts, (forall u, In (Fill u) acts -> Shaped D u /\ faces u <> []) /\ (do w <- tessNew D; mfold (act zn D) acts w) = Ok w).
    { intros b B G. exists (acts ++ [b]). split.
      - intros u I. apply in_app_or in I as [I|[I|[]]]; auto.
      - apply bind_ok in A as (w0 & T & A). rewrite T. cbn [bind]. rewrite mfold_app, A. cbn [bind mfold]. rewrite B. reflexivity. }
    assert (HELD : forall a f, fields m1 a = Ok f -> exists c k, a = 2 * k /\ Held zn D l D c a /\ Delivers D c).
    { intros a f Fi. pose proof (run_ghost _ _ _ _ _ R1) as Em. rewrite Em in Fi. apply fields_of in Fi as (k & D' & c & -> & G & _).
      pose proof (ghost_held zn D l m1 w1 k D' c R1 G) as H. pose proof H as H'. destruct H' as (l1 & y & l2 & m2 & w2 & El & M & _).
      destruct (U y c D') as (-> & De); auto. { rewrite El. apply in_or_app. left. apply in_or_app. right. left. auto. } exists c, k. auto. }
    assert (VC : forall (p : list V) n v, vector p n = Ok v -> n <= List.length p). { intros p n v Q. unfold vector in Q. destruct (Nat.leb_spec n (List.length p)); [auto|discriminate]. }
    destruct x as [c|c|a| |a pts n|a pts n lo hi|a pts n pp k h]; cbn [doStep] in S1.
    + injection S1 as _ <-. eauto.
    + injection S1 as _ <-. eauto.
    + apply bind_ok in S1 as (m2 & _ & E). injection E as _ <-. eauto.
    + apply bind_ok in S1 as (w2 & B & E). injection E as _ <-. apply (ADD Clear); auto. discriminate.
    + apply bind_ok in S1 as (w2 & B & E). injection E as _ <-. pose proof B as B0. unfold tessUnbounded in B0. apply bind_ok in B0 as (f & Fi & B0). destruct (HELD a f Fi) as (c & k & -> & H & De1 & De2 & De3).
      destruct (tessl_calls zn D D c l (2 * k) m1 w1 R1 H) as (TU & _ & _ & DI & _). destruct (Nat.le_gt_cases (D * n) (List.length pts)) as [L|L].
      * rewrite (TU pts n L) in B. apply bind_ok in B as (t & T & B). apply (ADD (Fill t)); auto. intros u Q. injection Q as <-. eauto.
      * exfalso. unfold tesslDimension in DI. rewrite Fi in DI. cbn [bind] in DI. destruct (notNull (fst f)); injection DI as <-.
        -- apply bind_ok in B0 as (v & Q & _). apply VC in Q. lia.
        -- apply bind_ok in B0 as (u & _ & B0). apply bind_ok in B0 as (v & Q & _). apply VC in Q. lia.
    + apply bind_ok in S1 as (w2 & B & E). injection E as _ <-. pose proof B as B0. unfold tessInBox in B0. apply bind_ok in B0 as (f & Fi & B0). destruct (HELD a f Fi) as (c & k & -> & H & De1 & De2 & De3).
      destruct (tessl_calls zn D D c l (2 * k) m1 w1 R1 H) as (_ & TB & _ & DI & _). destruct (Nat.le_gt_cases (D * n) (List.length pts)) as [L|L].
      * rewrite (TB pts n lo hi L) in B. apply bind_ok in B as (t & T & B). apply (ADD (Fill t)); auto. intros u Q. injection Q as <-. eauto.
      * exfalso. unfold tesslDimension in DI. rewrite Fi in DI. cbn [bind] in DI. destruct (notNull (fst f)); injection DI as <-.
        -- apply bind_ok in B0 as (v & Q & _). apply VC in Q. lia.
        -- apply bind_ok in B0 as (u & _ & B0). apply bind_ok in B0 as (v & Q & _). apply VC in Q. lia.
    + apply bind_ok in S1 as (w2 & B & E). injection E as _ <-. pose proof B as B0. unfold tessInPlc in B0. apply bind_ok in B0 as (f & Fi & B0). destruct (HELD a f Fi) as (c & j & -> & H & De1 & De2 & De3).
      destruct (tessl_calls zn D D c l (2 * j) m1 w1 R1 H) as (_ & _ & TP & DI & _). unfold tesslDimension in DI. rewrite Fi in DI. cbn [bind] in DI.
      assert (X : D * n <= List.length pts /\ D * k <= List.length pp /\ exists p, CPlcModel.fillCpp (Z.of_nat D) h = Ok p).
      { destruct (notNull (fst f)); injection DI as <-.
        - apply bind_ok in B0 as (v & Q & B0). apply VC in Q. apply bind_ok in B0 as (v' & Q' & B0). apply VC in Q'. apply bind_ok in B0 as (p & Q'' & B0). eauto.
        - apply bind_ok in B0 as (u & _ & B0). apply bind_ok in B0 as (v & Q & B0). apply VC in Q. apply bind_ok in B0 as (v' & Q' & B0). apply VC in Q'. apply bind_ok in B0 as (p & Q'' & B0). eauto. }
      destruct X as (L & L' & p & P). rewrite (TP pts n pp k h p L L' P) in B. apply bind_ok in B as (t & T & B). apply (ADD (Fill t)); auto. intros u Q. injection Q as <-. eauto.
Qed.

(* End to end: a C program that tessellates points, with whatever handles it has used before (all of one
   dimension), gets the tessellation t a C++ program gets from the tessellator, in every field but the
   convex hull.  The proviso of C63 on the second cells stays. *)
Theorem tessl_result_partial {V} zn D (c : cpp V) l a m w t0 : Uniform D l -> run zn D l = Ok (m, w) -> Held zn D l D c a ->
  (forall points n t, D * n <= List.length points -> unbounded c (firstn (D * n) points) = Ok t -> Tellable t ->
     exists w', tessUnbounded zn m a points n w = Ok w' /\ fillCpp D w' t0 = Ok (withHull t t0)) /\
  (forall points n low high t, D * n <= List.length points -> inBox c (firstn (D * n) points) low high = Ok t -> Tellable t ->
     exists w', tessInBox zn m a points n low high w = Ok w' /\ fillCpp D w' t0 = Ok (withHull t t0)) /\
  (forall points n pp k cs h q t, D * n <= List.length points -> D * k <= List.length pp ->
     CPlcModel.history (Z.of_nat D) cs = Ok h -> CPlcModel.fillCpp (Z.of_nat D) h = Ok q ->
     inPlc c (firstn (D * n) points) (firstn (D * k) pp) q = Ok t -> Tellable t ->
     exists w', tessInPlc zn m a points n pp k h w = Ok w' /\ fillCpp D w' t0 = Ok (withHull t t0)).
Proof.
  intros U R H. destruct (tessl_calls zn D D c l a m w R H) as (TU & TB & TP & _).
  assert (D23 : D = 2 \/ D = 3). { destruct H as (l1 & x & l2 & m1 & w1 & _ & [(-> & _)|(-> & _)] & _); auto. }
  assert (De : Delivers D c). { destruct H as (l1 & x & l2 & m1 & w1 & -> & M & _). apply (U x c D); auto. apply in_or_app. right. left. auto. }
  destruct De as (De1 & De2 & De3). pose proof (run_acts zn D l m w U R) as W. split; [|split].
  - intros points n t L T TE. destruct (De1 _ _ T) as [SH _]. destruct (round_trip_partial zn D t t0 D23 SH TE w W) as (w' & F & B). exists w'. rewrite (TU points n L), T. auto.
  - intros points n low high t L T TE. destruct (De2 _ _ _ _ T) as [SH _]. destruct (round_trip_partial zn D t t0 D23 SH TE w W) as (w' & F & B). exists w'. rewrite (TB points n low high L), T. auto.
  - intros points n pp k cs h q t L L' _ P T TE. destruct (De3 _ _ _ _ T) as [SH _]. destruct (round_trip_partial zn D t t0 D23 SH TE w W) as (w' & F & B). exists w'. rewrite (TP points n pp k h q L L' P), T. auto.
Qed.
Print Assumptions tessl_result_partial.

(* A PLC object of the other dimension, however it was built, is undefined behaviour. *)
Theorem tessl_plc_refuted {V} zn D0 D (c : cpp V) l a m w points n pp k D' cs h : run zn D0 l = Ok (m, w) -> Held zn D0 l D c a ->
  D * n <= List.length points -> D * k <= List.length pp -> (D' = 2 \/ D' = 3) -> D' <> D -> CPlcModel.history (Z.of_nat D') cs = Ok h ->
  tessInPlc zn m a points n pp k h w = UB.
Proof.
  intros R H L L' D23' NE HI. pose proof (run_ghost zn D0 l m w R) as ->.
  assert (D23 : D = 2 \/ D = 3). { destruct H as (l1 & x & l2 & m1 & w1 & _ & [(-> & _)|(-> & _)] & _); auto. }
  destruct (held_ghost zn D0 l D c a _ w R H) as (j & -> & G). pose proof (fields_at _ j D c G) as F.
  assert (Vc : forall (p : list V) n, n <= List.length p -> vector p n = Ok (firstn n p)). { intros p i Q. unfold vector. apply Nat.leb_le in Q. rewrite Q. reflexivity. }
  assert (X : CPlcModel.fillCpp (Z.of_nat D) h = UB).
  { assert (INV : (if D' =? 2 then CPlcModel.plc3 h else CPlcModel.plc2 h) = None /\ (if D' =? 2 then CPlcModel.plc2 h else CPlcModel.plc3 h) <> None).
    { unfold CPlcModel.history in HI. apply bind_ok in HI as (h0 & N0 & HI).
      assert (I0 : (if D' =? 2 then CPlcModel.plc3 h0 else CPlcModel.plc2 h0) = None /\ (if D' =? 2 then CPlcModel.plc2 h0 else CPlcModel.plc3 h0) <> None).
      { destruct D23' as [-> | ->]; cbn in N0; injection N0 as <-; cbn; split; auto; discriminate. }
      clear N0. revert h0 I0 HI. induction cs as [|x cs IH]; intros h0 I0 HI; cbn [mfold] in HI; [injection HI as <-; auto|]. apply bind_ok in HI as (h1 & S1 & HI). apply (IH h1); auto.
      assert (ST : forall p, (if D' =? 2 then CPlcModel.plc3 (CPlcModel.store h0 p) else CPlcModel.plc2 (CPlcModel.store h0 p)) = None /\ (if D' =? 2 then CPlcModel.plc2 (CPlcModel.store h0 p) else CPlcModel.plc3 (CPlcModel.store h0 p)) <> None).
      { intros p. unfold CPlcModel.store. destruct (D' =? 2); destruct I0 as [A B]; destruct (CPlcModel.plc2 h0) eqn:E2; cbn; split; auto; try congruence. }
      clear - S1 I0 ST. destruct x; cbn [CPlcModel.do_call] in S1;
        unfold CPlcModel.addFacet, CPlcModel.addFacetNode, CPlcModel.addHole, CPlcModel.addHoleFacet, CPlcModel.addHoleFacetNode in S1;
        repeat match goal with S : bind _ _ = Ok _ |- _ => apply bind_ok in S as (? & ? & S) end;
        repeat match goal with S : Ok _ = Ok _ |- _ => injection S as <- end; cbn [fst] in *; subst; auto; try apply ST.
      unfold CPlcModel.plcClear in S1. destruct (D' =? 2); destruct I0 as [A B]; destruct (CPlcModel.plc2 h0) eqn:E2; destruct (CPlcModel.plc3 h0) eqn:E3; try congruence; injection S1 as <-; cbn; split; auto; discriminate. }
    destruct INV as [A _]. unfold CPlcModel.fillCpp. destruct D23 as [-> | ->], D23' as [-> | ->]; try congruence; cbn in *; rewrite A; reflexivity. }
  unfold tessInPlc. rewrite F. destruct D23 as [-> | ->]; cbn [Nat.eqb bind fst snd notNull assert]; rewrite (Vc _ _ L), (Vc _ _ L'); cbn [bind];
    [change 2%Z with (Z.of_nat 2)|change 3%Z with (Z.of_nat 3)]; rewrite X; reflexivity.
Qed.
Print Assumptions tessl_plc_refuted.

(* The name cannot be read: of every handle, the string is gone when the caller gets the pointer. *)
Theorem tessl_name_refuted {V} zn D0 D (c : cpp V) l a m w : run zn D0 l = Ok (m, w) -> Held zn D0 l D c a ->
  exists m' p, tesslName m a = Ok (m', p) /\ p <> Null /\ readString m' p = UB.
Proof.
  intros R H. pose proof (run_ghost zn D0 l m w R) as ->.
  assert (D23 : D = 2 \/ D = 3). { destruct H as (l1 & x & l2 & m1 & w1 & _ & [(-> & _)|(-> & _)] & _); auto. }
  destruct (held_ghost zn D0 l D c a _ w R H) as (j & -> & G). pose proof (fields_at _ j D c G) as F. pose proof (deref_at _ j D c G) as De.
  unfold tesslName. rewrite F. set (m := layout 0 (ghost l)) in *. clearbody m.
  assert (E : (if notNull (fst (if D =? 2 then (Ptr (S (2 * j)), Null) else (Null, Ptr (S (2 * j))))) then deref m (fst (if D =? 2 then (Ptr (S (2 * j)), Null) else (Null, Ptr (S (2 * j)))))
     else deref m (snd (if D =? 2 then (Ptr (S (2 * j)), Null) else (Null, Ptr (S (2 * j)))))) = Ok c) by (destruct (D =? 2); exact De).
  cbn [bind]. rewrite E. cbn [bind]. unfold release. rewrite nth_error_app2, Nat.sub_diag by lia. cbn [nth_error bind]. do 2 eexists. split; [reflexivity|]. split; [discriminate|].
  unfold readString. rewrite upd_mid, nth_error_app2, Nat.sub_diag by lia. reflexivity.
Qed.
Print Assumptions tessl_name_refuted.

(* A history: two handles, of which the second is used before and after the first is freed, and then
   freed itself.  The tessellator gives the triangle small of CTessProps.v whatever the points. *)
Definition toy : cpp Z := mkCpp (fun _ => Ok small) (fun _ _ _ => Ok small) (fun _ _ _ => Ok small) true "toy" 1%Z.
Definition toy_history : list (@step Z) :=
  [New2 toy; New2 toy; Unbounded 2 [0; 0; 1; 1]%Z 2; Free 0; ClearMesh; InBox 2 [0; 0; 1; 1; 5]%Z 1 [0; 0]%Z [1; 1]%Z].
Example toy_case : (exists s, run false 2 toy_history = Ok s) /\ Uniform 2 toy_history /\ Held false 2 toy_history 2 toy 2 /\ Dropped false 2 toy_history 2 toy 0.
Proof.
  split; [eexists; vm_compute; reflexivity|]. split; [|split].
  - assert (De : Delivers 2 toy). { destruct small_shaped as (A & _ & B). split; [|split]; intros; cbn in *; assert (t = small) by congruence; subst; auto. }
    intros x c D' I M. destruct M as [(-> & ->)|(-> & ->)].
    + split; auto. repeat destruct I as [I|I]; try discriminate I; try (injection I as <-; exact De). destruct I.
    + repeat destruct I as [I|I]; try discriminate I. destruct I.
  - exists [New2 toy], (New2 toy), (skipn 2 toy_history). do 2 eexists. split; [reflexivity|]. split; [left; auto|]. split; [reflexivity|]. split; [reflexivity|].
    cbn. intros I. repeat destruct I as [I|I]; try discriminate I. destruct I.
  - exists [], (New2 toy), (skipn 1 toy_history). do 2 eexists. split; [reflexivity|]. split; [left; auto|]. split; [reflexivity|]. split; [reflexivity|]. cbn. auto.
Qed.
Example toy_end : exists m w, run false 2 (toy_history ++ [Free 2]) = Ok (m, w) /\ Gone m.
Proof.
  do 2 eexists. split; [vm_compute; reflexivity|]. intros a o H. do 4 (destruct a as [|a]; [discriminate H|]). destruct a; discriminate H.
Qed.
