(* From the generators and boundary points of the caller to the Voronoi cells. *)
From Coq Require Import QArith Lqa.
From Verif Require Import Base BaseFacts SerializeModel MeshModel QuantMeshModel PLCSpec PLCProofs BoxModel BoxProofs BoxProps Plane AreaModel WithinSpec TriModel TriSpec TriProofs TriProofs5 TriProofs6 TriProofs8 TriProofs9 TriProofs10.
Local Open Scope nat_scope.

Section Standard.
  Context (big : Q) (bnd points : list Q) (xl yl xh yh : Q) (f : frame) (gq uq : list (pt * nat)).
  Let L := qmax (xh - xl) (yh - yl).
  Context (Box : local_box 2 big bnd = Ok ([xl; yl], [xh; yh])) (Size : (xl < xh \/ yl < yh)%Q) (Ff : boundary_frame big bnd = Ok f)
    (Co : construct f points = Ok (gq, uq))
    (Inside : forall i x y, i < length gq -> vertex 2 points i = [x; y] -> (xl <= x <= xh)%Q /\ (yl <= y <= yh)%Q).
  Let gens := map fst gq.
  Let guards := map fst uq.

  Lemma L_pos : (0 < L)%Q.
  Proof. clear Inside Co. destruct (qmax_le (xh - xl) (yh - yl)) as (A1 & A2 & _). fold L in A1, A2. destruct Size; lra. Qed.
  Lemma f_is : f = around_box xl yl L.
  Proof. unfold boundary_frame in Ff. rewrite Box in Ff. cbn [bind] in Ff. injection Ff as <-. reflexivity. Qed.
  Lemma f_full : full f.
  Proof. rewrite f_is. apply around_full, L_pos. Qed.
  Lemma guards_is : guards = map fst (BoxModel.guards (length points / 2)).
  Proof. unfold guards. unfold construct in Co. destruct (length points mod 2 =? 0); [|discriminate]. cbn [assert bind] in Co. cbv zeta in Co. assert (E : uq = BoxModel.guards (length points / 2)) by congruence. rewrite E. auto. Qed.

  Lemma gens_middle i g : nth_error gens i = Some g -> on_grid g /\
    (xl - (1 # 10) * L <= fst (deq f g) <= xl + L)%Q /\ (yl - (1 # 10) * L <= snd (deq f g) <= yl + L)%Q.
  Proof.
    intros H. unfold gens in H. rewrite nth_error_map in H. destruct (nth_error gq i) as [[g' k]|] eqn:E; [|discriminate]. injection H as H. cbn [fst] in H. subst g'.
    destruct (construct_correct f points gq uq Co) as (Len & C & _). pose proof (nth_error_lt _ _ _ E) as Li.
    assert (V : exists x y, vertex 2 points i = [x; y]).
    { pose proof (vertex_length 2 points i ltac:(lia)) as VL. destruct (vertex 2 points i) as [|x [|y [|]]]; try discriminate. eauto. }
    destruct V as (x & y & V). rewrite (C i x y Li V) in E. injection E as <- <-. destruct (Inside i x y Li V) as [Bx By].
    destruct (qmax_le (xh - xl) (yh - yl)) as (A1 & A2 & _). fold L in A1, A2. pose proof L_pos as Lp. pose proof f_full as Fu.
    assert (Fr : in_frame f (x, y)) by (rewrite f_is; unfold in_frame; cbn [fx fy flen around_box fst snd]; lra).
    destruct (quantize_in_range f (x, y) (full_proper f Fu) Fr) as [G1 G2].
    destruct (dequantize_error f (x, y) (full_proper f Fu) Fr) as (vx & vy & E & X & Y). cbn [fst snd] in X, Y.
    assert (Ed : deq f (quantize f (x, y)) = (vx, vy)) by (unfold dequantize in E; injection E as <- <-; reflexivity). rewrite Ed. cbn [fst snd].
    assert (Sp : (spacing f <= (1 # 10) * L)%Q).
    { rewrite f_is. unfold spacing. cbn [flen cmin cmax around_box]. apply Qle_shift_div_r; [vm_compute; reflexivity|].
      assert ((50 <= inject_Z (coordMax - coordMin))%Q) by (vm_compute; discriminate).
      assert (0 <= L * (inject_Z (coordMax - coordMin) - 50))%Q by (apply Qmult_le_0_compat; lra). lra. }
    destruct Fu as (F1 & F2 & _). rewrite F1, F2 in G1, G2. split; [split; auto|]. lra.
  Qed.
  Lemma all_on_grid p : In p (gens ++ guards) -> on_grid p.
  Proof.
    intros I. apply in_app_or in I as [I|I].
    - apply In_nth_error in I as [i I]. apply (gens_middle i). auto.
    - unfold guards in I. apply in_map_iff in I as ([u k] & <- & I). destruct (construct_correct f points gq uq Co) as (_ & _ & _ & C). destruct (C u k I) as (A & B & _). split; auto.
  Qed.
  Lemma gen_at p P : p < length gens -> nth_error (map (deq f) (gens ++ guards)) p = Some P -> exists g, nth_error gens p = Some g /\ P = deq f g.
  Proof.
    intros Lp H. rewrite nth_error_map, nth_error_app1 in H by auto. destruct (nth_error gens p) as [g|] eqn:E; [|discriminate]. injection H as <-. eauto.
  Qed.

  Lemma in_range tris : Delaunay (map (deq f) (gens ++ guards)) (length gens) tris -> forall a b c x, In (a, b, c) tris ->
    a < length gens \/ b < length gens \/ c < length gens -> Center (map (deq f) (gens ++ guards)) (a, b, c) x -> in_frame f x.
  Proof.
    intros D a b c x I H C.
    assert (W : exists p, p < length gens /\ corner (a, b, c) p) by (destruct H as [H|[H|H]]; eexists; split; try exact H; cbn; auto).
    destruct W as (p & Lp & Cp). destruct (dl_empty _ _ _ D _ _ _ I C Cp) as (P & HP & N).
    destruct (gen_at p P Lp HP) as (g & Hg & ->). destruct (gens_middle p g Hg) as (_ & Gx & Gy).
    rewrite f_is in *. apply (center_inside xl yl L L_pos (length points / 2) (deq (around_box xl yl L) g) x Gx Gy).
    intros u Iu. apply N. apply in_map, in_or_app. right. rewrite guards_is. auto.
  Qed.
  Lemma box_only p x : p < length gens -> (xl <= fst x <= xh)%Q -> (yl <= snd x <= yh)%Q ->
    (Nearest (map (deq f) (gens ++ guards)) p x <-> Nearest (map (deq f) gens) p x).
  Proof.
    intros Lp Bx By. destruct (qmax_le (xh - xl) (yh - yl)) as (A1 & A2 & _). fold L in A1, A2. rewrite map_app. split.
    - intros (P & HP & N). rewrite nth_error_app1 in HP by (rewrite map_length; auto). exists P. split; auto. intros q Iq. apply N. apply in_or_app. auto.
    - intros (P & HP & N). exists P. rewrite nth_error_app1 by (rewrite map_length; auto). split; auto. intros q Iq. apply in_app_or in Iq as [Iq|Iq]; auto.
      rewrite nth_error_map in HP. destruct (nth_error gens p) as [g|] eqn:Eg; [|discriminate]. injection HP as <-. destruct (gens_middle p g Eg) as (_ & Gx & Gy).
      apply in_map_iff in Iq as (u & <- & Iu). rewrite guards_is in Iu. rewrite f_is in *. apply (guard_far xl yl L L_pos (length points / 2)); auto; lra.
  Qed.
End Standard.

(* with the general contract *)
Lemma tess_cells f gens guards tris : full f -> (forall p, In p (gens ++ guards) -> on_grid p) ->
  Delaunay (map (deq f) (gens ++ guards)) (length gens) tris ->
  (forall a b c x, In (a, b, c) tris -> a < length gens \/ b < length gens \/ c < length gens -> Center (map (deq f) (gens ++ guards)) (a, b, c) x -> in_frame f x) ->
  gens <> [] -> exists nodes edges cells, tri_tessellate f gens guards tris = Ok (nodes, edges, cells) /\
    Dual (length gens) tris (length nodes) edges cells /\
    forall p c, nth_error cells p = Some c -> VoronoiCell f (map (deq f) (gens ++ guards)) (length gens) tris nodes edges p c.
Proof.
  intros F G D R Ne. destruct (tess_ok f gens guards tris F G D R Ne) as (st & m & edges & cells & E & Ri & (_ & _ & Lc & Hc & _) & Du).
  exists (s_nodes st), edges, cells. split; auto. split; auto. intros p c H. destruct (Hc p c H) as (link & ts & r & S & Ro & W).
  apply (cell_ok f gens guards tris F G D R st p link ts r edges c); auto. rewrite <- Lc. eapply nth_error_lt; eauto.
Qed.

(* a generator without three triangles stops the read-out *)
Lemma ok_bind {A B} (m : res A) (k : A -> res B) b : bind m k = Ok b -> exists a, m = Ok a /\ k a = Ok b.
Proof. destruct m; cbn; try discriminate. eauto. Qed.

Section Lonely.
  Context (f : frame) (pts : list p2) (ngen : nat) (tris : list tri).
  Let good (m : nat) (g : list (list nat)) : Prop := forall p s, nth_error g p = Some s -> NoDup s /\ forall x, In x s -> x < m /\ touches tris p x.

  Lemma insert_tri_good m g p g' : insert_tri g p m = Ok g' -> touches tris p m -> good (m + 1) g -> (forall s, nth_error g p = Some s -> forall x, In x s -> x < m) ->
    good (m + 1) g' /\ forall q, q <> p -> nth_error g' q = nth_error g q.
  Proof.
    intros E T G B. unfold insert_tri in E. apply ok_bind in E as (s & Hs & E). apply get_ok in Hs. specialize (B s Hs).
    rewrite oinsert_last in E by auto. apply set_ok in E as [Lp ->]. split.
    - intros q s' H. destruct (Nat.eq_dec q p) as [->|N].
      + rewrite upd_same in H by auto. injection H as <-. destruct (G p s Hs) as [Nd C]. split.
        * apply MeshEditorProofs2.NoDup_app_snoc; auto. intros I. specialize (B _ I). lia.
        * intros x I. apply in_app_or in I as [I|[<-|[]]]; [auto|split; auto; lia].
      + rewrite upd_other in H by auto. auto.
    - intros q N. apply upd_other. auto.
  Qed.
  Lemma read_tri_good m t st st' : nth_error tris m = Some t -> read_tri f pts ngen st (m, t) = Ok st' -> good m (s_gen2tri st) -> good (m + 1) (s_gen2tri st').
  Proof.
    intros Ht E G. destruct t as [[p q] r]. unfold read_tri in E. apply ok_bind in E as (u & D & E). apply assert_ok in D. rewrite !andb_true_iff, !negb_true_iff, !Nat.eqb_neq in D. destruct D as [[N1 N2] N3].
    do 7 (apply ok_bind in E as (? & _ & E)).
    assert (G1 : good (m + 1) (s_gen2tri st)) by (intros a s Hs; destruct (G a s Hs) as [Nd C]; split; auto; intros w I; destruct (C w I); split; auto; lia).
    match type of E with (if ?b then _ else _) = _ => destruct b end; [|injection E as <-; auto].
    do 4 (apply ok_bind in E as (? & _ & E)).
    apply ok_bind in E as (g1 & E1 & E). apply ok_bind in E as (g2 & E2 & E). apply ok_bind in E as (g3 & E3 & E).
    do 2 (apply ok_bind in E as (? & _ & E)). injection E as <-. cbn [s_gen2tri].
    assert (T : forall a, corner (p, q, r) a -> touches tris a m) by (intros a C; exists (p, q, r); auto).
    assert (B : forall a s, nth_error (s_gen2tri st) a = Some s -> forall w, In w s -> w < m) by (intros a s Hs w I; apply (G a s Hs); auto).
    destruct (insert_tri_good m _ p g1 E1) as [H1 O1]; [apply T; cbn; auto|auto|apply B|].
    destruct (insert_tri_good m _ q g2 E2) as [H2 O2]; [apply T; cbn; auto|auto|intros s; rewrite O1 by auto; apply B|].
    destruct (insert_tri_good m _ r g3 E3) as [H3 O3]; [apply T; cbn; auto|auto|intros s; rewrite O2, O1 by auto; apply B|]. auto.
  Qed.
  Lemma read_tris_good st : read_tris f pts ngen tris = Ok st -> good (length tris) (s_gen2tri st).
  Proof.
    unfold read_tris. set (st0 := mkStars _ _ _ _ _). assert (G0 : good 0 (s_gen2tri st0)).
    { intros p s H. assert (I := nth_error_In _ _ H). apply repeat_spec in I as ->. split; [constructor|intros x []]. }
    clearbody st0. intros E.
    assert (W : forall l2 l1 s, tris = l1 ++ l2 -> good (length l1) (s_gen2tri s) ->
      mfold (read_tri f pts ngen) (combine (seq (length l1) (length l2)) l2) s = Ok st -> good (length tris) (s_gen2tri st)).
    { clear E G0 st0. induction l2 as [|t l2 IH]; intros l1 s El G E.
      - cbn in E. injection E as <-. rewrite El, app_nil_r. auto.
      - cbn [length seq combine mfold] in E. apply ok_bind in E as (s' & E1 & E2).
        assert (Ht : nth_error tris (length l1) = Some t) by (rewrite El, nth_error_app2, Nat.sub_diag by lia; auto).
        apply (IH (l1 ++ [t]) s').
        + rewrite <- app_assoc. auto.
        + rewrite app_length. apply (read_tri_good _ _ _ _ Ht E1 G).
        + rewrite app_length. cbn [length]. rewrite Nat.add_1_r. auto. }
    apply (W tris [] st0); auto.
  Qed.
End Lonely.

Lemma mfold_each {A} (P : A -> res unit) l u u' : mfold (fun _ a => P a) l u = Ok u' -> forall a, In a l -> exists w, P a = Ok w.
Proof.
  revert u. induction l as [|x l IH]; intros u E a I; [destruct I|]. cbn in E. apply ok_bind in E as (w & E1 & E2). destruct I as [<-|I]; eauto.
Qed.
Lemma lonely f gens guards tris nodes edges cells : tri_tessellate f gens guards tris = Ok (nodes, edges, cells) ->
  forall p, p < length gens -> exists i j k, i <> j /\ i <> k /\ j <> k /\ touches tris p i /\ touches tris p j /\ touches tris p k.
Proof.
  intros E p Lp. unfold tri_tessellate in E. apply ok_bind in E as (u & _ & E). apply ok_bind in E as (st & Rd & E). apply ok_bind in E as (u' & Ck & _).
  unfold check_stars in Ck. apply ok_bind in Ck as (u2 & _ & Ck). destruct (mfold_each _ _ _ _ Ck p) as [w Hw]; [apply in_seq; lia|].
  apply ok_bind in Hw as (s & Hs & A). apply get_ok in Hs. apply assert_ok, Nat.leb_le in A.
  destruct (read_tris_good _ _ _ _ _ Rd p s Hs) as [Nd C]. destruct s as [|i [|j [|k s]]]; cbn in A; try lia.
  inversion Nd as [|? ? N1 Nd1]; subst. inversion Nd1 as [|? ? N2 Nd2]; subst.
  exists i, j, k. repeat split; try (apply C; cbn; auto); intros ->; [apply N1|apply N1|apply N2]; cbn; auto.
Qed.
