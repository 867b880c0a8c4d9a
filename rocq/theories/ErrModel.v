(* Model of the error handlers: src/ErrorHandler.cc and polytope_c/polytope_c.cc.  A caller's handlers are
   named by numbers; what they do is not modelled, only that they are called, and that they return (a
   handler that leaves the program ends the history there). *)
From Coq Require Import String.
From Verif Require Import Base.

(* a pointer to a function of a std::string and an int: NULL, the caller's n-th one, defaultErrorHandler (lines 23-39 of
   ErrorHandler.cc) or polytope_c_error_handler (lines 11-15 of polytope_c.cc) *)
Inductive handler := HNull | HUser (n : nat) | HDefault | HTrampoline.
(* polytope_error_handler, a pointer to a function of a char pointer and an int: NULL or the caller's n-th one *)
Inductive chandler := CNull | CUser (n : nat).

(* What can be seen: a C++ handler or a C handler is called, a text is printed, the program is left *)
Inductive event := Called (n : nat) (message : string) (status : Z) | CCalled (n : nat) (message : string) (status : Z)
  | Printed (text : string) | PrintedStatus (status : Z) | Left (status : Z).
(* the two static variables (ErrorHandler.cc line 18, polytope_c.cc line 9) and whether the program runs *)
Record errs := mkErrs { errorHandler : handler; err_handler : chandler; running : bool }.

(* defaultErrorHandler, lines 23-39: with MPI (mpi = Some rank) only rank 0 prints, and MPI_Abort ends the
   program instead of exit *)
Definition default (mpi : option nat) (message : string) (status : Z) : list event :=
  (match mpi with
   | Some (S _) => []
   | _ => [Printed ("Error: " ++ message); Printed "encountered in polytope library. Exiting with status "; PrintedStatus status]
   end ++ [Left status])%list.

(* message.c_str() as the C handler sees it: up to the first NUL *)
Fixpoint c_str (s : string) : string :=
  match s with
  | EmptyString => EmptyString
  | String c t => if Ascii.eqb c Ascii.zero then EmptyString else String c (c_str t)
  end.

(* error, lines 45-54 *)
Definition error (mpi : option nat) (s : errs) (message : string) (status : Z) : res (errs * list event) :=
  let h := match errorHandler s with HNull => HDefault | h => h end in
  let s := mkErrs h (err_handler s) (running s) in
  match h with
  | HNull => UB
  | HUser n => Ok (s, [Called n message status])
  | HDefault => Ok (mkErrs h (err_handler s) false, default mpi message status)
  | HTrampoline =>
      match err_handler s with CNull => UB | CUser n => Ok (s, [CCalled n (c_str message) status]) end
  end.
(* setErrorHandler, lines 58-62 *)
Definition setErrorHandler (s : errs) (h : handler) : errs := mkErrs h (err_handler s) (running s).
(* polytope_set_error_handler, polytope_c.cc lines 22-27 *)
Definition setCHandler (s : errs) (h : chandler) : res errs :=
  do _ <- assert (match h with CNull => false | _ => true end);
  Ok (setErrorHandler (mkErrs (errorHandler s) h (running s)) HTrampoline).

(* A history of calls; the caller has C++ handlers (None for NULL) and C handlers *)
Inductive ecall := Set_ (h : option nat) | SetC (h : option nat) | Error (message : string) (status : Z).
Definition ecall_do (mpi : option nat) (st : errs * list event) (c : ecall) : res (errs * list event) :=
  if running (fst st) then
    match c with
    | Set_ h => Ok (setErrorHandler (fst st) (match h with None => HNull | Some n => HUser n end), snd st)
    | SetC h => do s <- setCHandler (fst st) (match h with None => CNull | Some n => CUser n end); Ok (s, snd st)
    | Error m x => do r <- error mpi (fst st) m x; Ok (fst r, (snd st ++ snd r)%list)
    end
  else Ok st.
Definition errors (mpi : option nat) (l : list ecall) : res (errs * list event) :=
  mfold (ecall_do mpi) l (mkErrs HNull CNull true, []).
