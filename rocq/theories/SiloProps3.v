(* Theorems about the names in a parallel run of SiloWriter (C74). *)
From Coq Require Import String.
From Verif Require Import Base BaseFacts SerializeModel MeshModel SiloModel SiloSpec SiloProofs3.
Local Open Scope string_scope.
Local Open Scope nat_scope.

(* no two ranks write to the same block of the same file, and no rank to the master file *)
Theorem blocks_apart : forall directory filePrefix cycle nproc nf field, 0 < nf <= nproc -> Fits directory filePrefix cycle nproc field ->
  (forall r r', r < nproc -> r' < nproc -> r <> r' ->
     fileOf directory filePrefix cycle nproc nf r <> fileOf directory filePrefix cycle nproc nf r' \/ blockOf nproc nf r <> blockOf nproc nf r') /\
  (forall r, r < nproc -> fileOf directory filePrefix cycle nproc nf r <> masterFile directory filePrefix cycle nproc).
Proof.
  intros d p c n nf field [F0 Fn] Ft. split.
  - intros r r' R R' N. destruct (string_dec (fileOf d p c n nf r) (fileOf d p c n nf r')) as [E|E]; [|auto]. right. intros B. apply N. eapply (blocks_differ d p c n nf F0 Fn field Ft); eauto.
  - intros r R E. destruct (group_lt n nf F0 Fn r R) as [G I]. pose proof (Ft _ _ R R) as L. destruct (fits_parts d p c n nf F0 Fn field Ft (groupRank n nf r) 0) as (M & _ & E1 & _); [lia|lia|]. rewrite <- M in L.
    unfold fileOf, masterFile in E. rewrite E1 in E. rewrite fmt_id in E by (rewrite !sapp_len in *; lia).
    apply (f_equal String.length) in E. rewrite !sapp_len in E. change (String.length "/") with 1 in E. lia.
Qed.
Print Assumptions blocks_apart.

(* if the ranks divide evenly into files, the master file lists for every rank, in order, the place of
   its mesh and of each of its fields; so does the file of each group for the ranks of the group *)
Theorem master_file_partial : forall directory filePrefix cycle nproc nf maps, 0 < nf <= nproc -> nproc mod nf = 0 ->
  (forall field, field = "mesh" \/ In field (List.concat maps) -> Fits directory filePrefix cycle nproc field) ->
  length (masterMeshes filePrefix cycle nproc nf) = nproc /\
  (forall r, r < nproc -> exists name, nth_error (masterMeshes filePrefix cycle nproc nf) r = Some name /\ Names directory filePrefix cycle nproc nf r "mesh" name) /\
  (exists vars, masterVars filePrefix cycle nproc nf maps = Ok vars /\ Forall2 (fun field v => fst v = field /\ length (snd v) = nproc /\
     forall r, r < nproc -> exists name, nth_error (snd v) r = Some name /\ Names directory filePrefix cycle nproc nf r field name) (List.concat maps) vars) /\
  length (groupMeshes nproc nf) = nproc / nf /\
  (forall r, r < nproc -> nth_error (groupMeshes nproc nf) (rankInGroup nproc nf r) = Some (blockOf nproc nf r ++ "/mesh")%string) /\
  (exists vars, groupVars nproc nf maps = Ok vars /\ Forall2 (fun field v => fst v = field /\ length (snd v) = nproc / nf /\
     forall r, r < nproc -> nth_error (snd v) (rankInGroup nproc nf r) = Some (blockOf nproc nf r ++ "/" ++ field)%string) (List.concat maps) vars).
Proof.
  intros d p c n nf maps [F0 Fn] Ev Ft. pose proof (size_pos n nf F0 Fn) as K. assert (Q : n = nf * (n / nf)) by (pose proof (Nat.div_mod n nf ltac:(lia)); lia).
  assert (Ms : forall field, field = "mesh" \/ In field (List.concat maps) -> forall r, r < n ->
     exists name, nth_error (flat_map (fun i => map (fun k => masterVar p c i k field) (seq 0 (n / nf))) (seq 0 nf)) r = Some name /\ Names d p c n nf r field name).
  { intros field I r R. rewrite (nth_flat (fun i k => masterVar p c i k field)) by lia. eexists. split; [reflexivity|]. destruct (group_even n nf F0 Fn r Ev) as [<- <-]. cbn [Nat.add]. apply names_ok; auto. }
  assert (Gs : forall field, field = "mesh" \/ In field (List.concat maps) -> forall r, r < n ->
     nth_error (map (fun k => groupVar k field) (seq 0 (n / nf))) (rankInGroup n nf r) = Some (blockOf n nf r ++ "/" ++ field)%string).
  { intros field I r R. destruct (group_even n nf F0 Fn r Ev) as [_ E]. assert (rankInGroup n nf r < n / nf) by (rewrite E; apply Nat.mod_upper_bound; lia).
    rewrite nth_error_map, (nth_error_nth' _ 0), seq_nth by (rewrite ?seq_length; auto). cbn [option_map Nat.add]. f_equal. destruct (group_lt n nf F0 Fn r R) as [G L].
    destruct (fits_parts d p c n nf F0 Fn field (Ft _ I) 0 (rankInGroup n nf r)) as (_ & _ & _ & E2 & _ & E3); [lia|lia|]. unfold blockOf. rewrite E2, E3, sapp_assoc. auto. }
  split; [unfold masterMeshes, numChunks; rewrite flat_len; lia|]. split; [exact (Ms "mesh" (or_introl eq_refl))|]. split.
  - unfold masterVars. rewrite multivars_ok. eexists. split; [reflexivity|]. unfold numChunks.
    assert (X : forall field, map (fun name : string -> string => name field) (flat_map (fun i => map (masterVar p c i) (seq 0 (n / nf))) (seq 0 nf)) = flat_map (fun i => map (fun k => masterVar p c i k field) (seq 0 (n / nf))) (seq 0 nf)).
    { intros field. generalize (seq 0 nf). induction l as [|i l IH]; cbn; auto. rewrite map_app, map_map, IH. auto. }
    assert (Ms' := fun field I => Ms field (or_intror I)). clear -X Ms' Q. induction (List.concat maps) as [|f l IH]; cbn [map].
    { apply Forall2_nil. }
    apply Forall2_cons; [|apply IH; intros; apply Ms'; [right; auto|auto]].
    cbn [fst snd]. split; auto. rewrite X. split; [rewrite (flat_len (fun i k => masterVar p c i k f)); lia|]. apply Ms'. left; auto.
  - split; [unfold groupMeshes, numChunks; rewrite map_length, seq_length; auto|]. split; [exact (Gs "mesh" (or_introl eq_refl))|].
    unfold groupVars. rewrite multivars_ok. eexists. split; [reflexivity|]. unfold numChunks.
    assert (Gs' := fun field I => Gs field (or_intror I)). clear -Gs'. induction (List.concat maps) as [|f l IH]; cbn [map].
    { apply Forall2_nil. }
    apply Forall2_cons; [|apply IH; intros; apply Gs'; [right; auto|auto]].
    cbn [fst snd]. split; auto. rewrite map_map. split; [rewrite map_length, seq_length; auto|]. apply Gs'. left; auto.
Qed.
Print Assumptions master_file_partial.

Definition fitsb (directory filePrefix : string) (cycle : Z) (nproc : nat) (field : string) : bool :=
  forallb (fun i => forallb (fun c => String.length ((if string_dec directory "" then filePrefix ++ "-" ++ dec nproc else directory) ++ "/" ++ dec i ++ "/" ++ strip filePrefix ++ ending cycle ++ ":/domain_" ++ dec c ++ "/" ++ field) <? 1024) (seq 0 nproc)) (seq 0 nproc).
Lemma fitsb_ok directory filePrefix cycle nproc field : fitsb directory filePrefix cycle nproc field = true -> Fits directory filePrefix cycle nproc field.
Proof.
  unfold fitsb. rewrite forallb_forall. intros H i c I C. specialize (H i ltac:(apply in_seq; lia)). rewrite forallb_forall in H. apply Nat.ltb_lt. apply H. apply in_seq; lia.
Qed.
Example master_case : (forall field, field = "mesh" \/ In field (List.concat [["t"]; []; []; ["rho"]]) -> Fits "" "run.silo" 12 6 field) /\
  masterMeshes "run.silo" 12 6 3 = ["0/run-12.silo:/domain_0/mesh"; "0/run-12.silo:/domain_1/mesh"; "1/run-12.silo:/domain_0/mesh"; "1/run-12.silo:/domain_1/mesh"; "2/run-12.silo:/domain_0/mesh"; "2/run-12.silo:/domain_1/mesh"] /\
  fileOf "" "run.silo" 12 6 3 5 = "run.silo-6/2/run-12.silo" /\ blockOf 6 3 5 = "domain_1".
Proof. split; [|vm_compute; auto]. cbn. intros f [->|[<-|[<-|[]]]]; apply fitsb_ok; vm_compute; reflexivity. Qed.

(* without the assumption that the number of files divides the number of ranks *)
Definition master_complete : Prop := forall directory filePrefix cycle nproc nf, 0 < nf <= nproc -> Fits directory filePrefix cycle nproc "mesh" ->
  forall r, r < nproc -> exists name, In name (masterMeshes filePrefix cycle nproc nf) /\ Names directory filePrefix cycle nproc nf r "mesh" name.
Theorem master_complete_refuted : ~ master_complete.
Proof.
  intros H. destruct (H "d" "p" (-1)%Z 3 2 ltac:(lia) ltac:(apply fitsb_ok; vm_compute; reflexivity) 1 ltac:(lia)) as (name & I & N).
  unfold Names in N. revert I N. vm_compute. intros [<-|[<-|[]]]; discriminate.
Qed.
Print Assumptions master_complete_refuted.
