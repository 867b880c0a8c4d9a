(* C104: errors go to the handler that was set last. *)
From Coq Require Import String.
From Verif Require Import Base BaseFacts ErrModel ErrSpec.
From Coq Require Import Lia.
Local Open Scope list_scope.

Definition counts (s : errs) : option (option (bool * nat)) :=
  match errorHandler s, err_handler s with
  | HNull, _ | HDefault, _ => Some None
  | HUser n, _ => Some (Some (true, n))
  | HTrampoline, CUser n => Some (Some (false, n))
  | HTrampoline, CNull => None
  end.

Lemma errors_app mpi l l' st : mfold (ecall_do mpi) (l ++ l') st = (do st <- mfold (ecall_do mpi) l st; mfold (ecall_do mpi) l' st).
Proof. apply mfold_app. Qed.
Lemma lastset_set l c u : Setting c u -> LastSet (l ++ [c]) u.
Proof. intros S. right. exists l, c, []. split; auto. Qed.
Lemma lastset_error l m x u : LastSet l u -> LastSet (l ++ [Error m x]) u.
Proof.
  assert (NE : ~ isSet (Error m x)) by (intros (v & [])).
  intros [(N & ->)|(l1 & c & l2 & -> & S & N)].
  - left. split; auto. intros c I. apply in_app_or in I as [I|[<-|[]]]; auto.
  - right. exists l1, c, (l2 ++ [Error m x]). rewrite <- app_assoc. split; auto. split; auto. intros d I. apply in_app_or in I as [I|[<-|[]]]; auto.
Qed.

(* once the program is left nothing more happens *)
Lemma left_stays mpi : forall l s es, running s = false -> mfold (ecall_do mpi) l (s, es) = Ok (s, es).
Proof. induction l as [|c l IH]; intros s es R; auto. cbn [mfold]. unfold ecall_do at 1. cbn [fst]. rewrite R. cbn [bind]. apply IH, R. Qed.

Lemma errors_ok mpi : forall l, NoNull l -> exists s es, errors mpi l = Ok (s, es) /\ (running s = true -> exists u, LastSet l u /\ counts s = Some u).
Proof.
  induction l as [|c l IH] using rev_ind; intros NN.
  - do 2 eexists. split; [reflexivity|]. exists None. split; [left; split; [intros c []|reflexivity]|reflexivity].
  - destruct IH as (s & es & E & H). { intros I. apply NN. apply in_or_app. auto. }
    unfold errors in *. rewrite errors_app, E. cbn [bind mfold]. unfold ecall_do. cbn [fst snd].
    destruct (running s) eqn:Ru; [|do 2 eexists; split; [reflexivity|]; intros; congruence]. destruct (H eq_refl) as (u & LS & C).
    destruct c as [h|h|m x].
    + do 2 eexists. split; [reflexivity|]. exists (option_map (pair true) h). split; [apply lastset_set; reflexivity|]. destruct h; reflexivity.
    + destruct h as [n|]; [|exfalso; apply NN, in_or_app; right; left; reflexivity]. do 2 eexists. split; [reflexivity|]. exists (Some (false, n)). split; [apply lastset_set; reflexivity|reflexivity].
    + unfold counts in C. unfold error. destruct (errorHandler s); cbn [bind fst snd err_handler running errorHandler].
      * do 2 eexists. split; [reflexivity|]. discriminate.
      * injection C as <-. do 2 eexists. split; [reflexivity|]. eexists. split; [apply lastset_error; eauto|reflexivity].
      * do 2 eexists. split; [reflexivity|]. discriminate.
      * destruct (err_handler s) eqn:EH; [discriminate|]. injection C as <-. do 2 eexists. split; [reflexivity|]. eexists. split; [apply lastset_error; eauto|]. unfold counts. cbn [errorHandler err_handler]. rewrite ?EH. reflexivity.
Qed.

Lemma c_str_ok : forall m, BeforeNul m (c_str m).
Proof.
  induction m as [|c m (rest & E & N & R)]; [exists EmptyString; split; auto; split; auto; intros [|n]; discriminate|]. cbn [c_str]. destruct (Ascii.eqb_spec c Ascii.zero) as [->|NE].
  - eexists. split; [reflexivity|]. split; [intros [|n]; discriminate|]. right. eauto.
  - exists rest. split; [cbn; congruence|]. split; auto. intros [|n]; cbn; [congruence|apply N].
Qed.
Lemma default_ok mpi m x : Response None mpi m x (default mpi m x).
Proof.
  unfold default. destruct mpi as [[|r]|]; eexists; (split; [reflexivity|]); (split; [split; [intros; try discriminate; eauto|intros (r' & E); try discriminate E; auto]|]); auto; congruence.
Qed.

(* After any history of calls through the two interfaces that gives no NULL to the C one and has not left
   the program, an error calls the handler set last, exactly once and nothing else, with the message (what
   a C string holds of it) and the status; the handler stays.  When none was set, or NULL was set last,
   the message is printed, under MPI by rank 0 only, and the program is left with the status. *)
Theorem error_handled mpi l m x : NoNull l -> exists s es, errors mpi l = Ok (s, es) /\
  (running s = true -> exists u s' more, LastSet l u /\ errors mpi (l ++ [Error m x]) = Ok (s', es ++ more) /\ Response u mpi m x more /\
     (running s' = true <-> u <> None)).
Proof.
  intros NN. destruct (errors_ok mpi l NN) as (s & es & E & H). exists s, es. split; auto. intros Ru. destruct (H Ru) as (u & LS & C). exists u.
  unfold errors in *. rewrite errors_app, E. cbn [bind mfold]. unfold ecall_do. cbn [fst snd]. rewrite Ru. unfold error. unfold counts in C.
  destruct (errorHandler s); cbn [bind fst snd err_handler running errorHandler].
  - injection C as <-. do 2 eexists. split; auto. split; [reflexivity|]. split; [apply default_ok|]. cbn. split; [discriminate|congruence].
  - injection C as <-. do 2 eexists. split; auto. split; [reflexivity|]. split; [reflexivity|]. cbn. rewrite Ru. split; auto. discriminate.
  - injection C as <-. do 2 eexists. split; auto. split; [reflexivity|]. split; [apply default_ok|]. cbn. split; [discriminate|congruence].
  - destruct (err_handler s) eqn:EH; [discriminate|]. injection C as <-. do 2 eexists. split; auto. split; [reflexivity|]. split; [exists (c_str m); split; [apply c_str_ok|reflexivity]|]. cbn. rewrite Ru. split; auto. discriminate.
Qed.
Print Assumptions error_handled.
(* There is one last setting. *)
Theorem last_set_unique l u v : LastSet l u -> LastSet l v -> u = v.
Proof.
  intros [(N & ->)|(l1 & c & l2 & -> & S1 & N)] [(N' & ->)|(l1' & c' & l2' & E & S2 & N')]; auto.
  - exfalso. subst l. apply (N c'); [apply in_or_app; right; left; auto|exists v; auto].
  - exfalso. apply (N' c); [apply in_or_app; right; left; auto|exists u; auto].
  - assert (K : l2 = l2' /\ c = c').
    { revert l2' N' E. induction l2 as [|d l2 IH] using rev_ind; intros l2' N' E.
      - destruct l2' as [|d' l2' _] using rev_ind; [apply app_inj_tail in E as [_ E]; auto|]. exfalso. change (c' :: l2' ++ [d']) with ((c' :: l2') ++ [d']) in E. rewrite app_assoc in E. apply app_inj_tail in E as [_ E]. subst d'.
        apply (N' c); [apply in_or_app; right; left; auto|exists u; auto].
      - destruct l2' as [|d' l2' _] using rev_ind.
        + exfalso. change (c :: l2 ++ [d]) with ((c :: l2) ++ [d]) in E. rewrite app_assoc in E. apply app_inj_tail in E as [_ E]. subst d. apply (N c'); [apply in_or_app; right; left; auto|exists v; auto].
        + change (c :: l2 ++ [d]) with ((c :: l2) ++ [d]) in E. change (c' :: l2' ++ [d']) with ((c' :: l2') ++ [d']) in E. rewrite !app_assoc in E. apply app_inj_tail in E as [E ->].
          destruct (IH ltac:(intros e I; apply N; apply in_or_app; auto) l2' ltac:(intros e I; apply N'; apply in_or_app; auto) E) as (-> & ->). auto. }
    destruct K as (_ & <-). destruct c; cbn in S1, S2; try contradiction; congruence.
Qed.
Print Assumptions last_set_unique.
(* NULL given to the C interface is stopped by an assertion, wherever it comes while the program runs. *)
Theorem error_null_stops mpi l s es : errors mpi l = Ok (s, es) -> running s = true -> errors mpi (l ++ [SetC None]) = Abort.
Proof. intros E R. unfold errors in *. rewrite errors_app, E. cbn [bind mfold]. unfold ecall_do. cbn [fst snd]. rewrite R. reflexivity. Qed.
Print Assumptions error_null_stops.
(* Once the program is left nothing more is seen. *)
Theorem error_left mpi l l' s es : errors mpi l = Ok (s, es) -> running s = false -> errors mpi (l ++ l') = Ok (s, es).
Proof. intros E R. unfold errors in *. rewrite errors_app, E. cbn [bind]. apply left_stays, R. Qed.
Print Assumptions error_left.

(* The C++ and the C interface mixed: handler 7 of C++, handler 3 of C, which sees the text up to the NUL
   only, then NULL, so that the default leaves the program. *)
Example mixed : exists s, errors None [Set_ (Some 7); Error "a" 1; SetC (Some 3); Error "b" 2; Set_ (Some 7); Error "c" 3; Set_ None; Error "d" 4; Error "e" 5]
  = Ok (s, [Called 7 "a" 1; CCalled 3 "b" 2; Called 7 "c" 3; Printed "Error: d"; Printed "encountered in polytope library. Exiting with status "; PrintedStatus 4; Left 4]%Z).
Proof. eexists. reflexivity. Qed.
Example mixed_hyps : NoNull [Set_ (Some 7); SetC (Some 3)] /\ LastSet [Set_ (Some 7); SetC (Some 3); Error "b" 2] (Some (false, 3)).
Proof.
  split; [intros [I|[I|[]]]; discriminate I|]. right. exists [Set_ (Some 7)], (SetC (Some 3)), [Error "b" 2]. split; auto. split; [reflexivity|]. intros d [<-|[]] (v & []).
Qed.
