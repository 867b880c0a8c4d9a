(* Model of src/checkDistributedTessellation.hh.  The bounding box and the hashing of the node
   positions (lines 277-280 and 303-306) come before; what follows only looks at the hashed
   positions, the neighbors and the lists of shared nodes.  Strings are lists of bytes. *)
From Verif Require Import Base SerializeModel MeshModel CollModel.
From Coq Require Ascii String.
Import String.StringSyntax.

Definition bytes (s : String.string) : list Z := map (fun c => Z.of_nat (Ascii.nat_of_ascii c)) (String.list_ascii_of_string s).
Arguments bytes s%string_scope.

(* reduceToMaxString, lines 25-44 *)
Definition reduceToMaxString (x : list Z) (rank n : nat) : cprog (list Z) :=
  CMin (if isnil x then n else rank) (fun bad =>
    if bad =? n then CRet (Ok x) else
    CBcast bad 1 [usize x] (fun sz => match sz with
      | [size] => clift (assert (0 <? size)%Z) (fun _ =>
          CBcast bad (Z.to_nat size) (resize 48%Z (Z.to_nat size) x) (fun r => CRet (Ok r)))
      | _ => CRet UB end)).

(* std::sort and std::set_intersection with a comparison.  std::sort may order elements that
   compare equal differently; the code only compares the results with == of Point. *)
Section Algo.
  Context {A : Type} (lt : A -> A -> bool).
  Fixpoint insb (a : A) (l : list A) : list A := match l with [] => [a] | b :: t => if lt b a then b :: insb a t else a :: l end.
  Fixpoint sortb (l : list A) : list A := match l with [] => [] | a :: t => insb a (sortb t) end.
  Fixpoint interb (l1 : list A) : list A -> list A :=
    match l1 with
    | [] => fun _ => []
    | a :: t1 => fix go l2 := match l2 with
        | [] => []
        | b :: t2 => if lt a b then interb t1 l2 else if lt b a then go t2 else a :: interb t1 t2
        end
    end.
End Algo.
(* operator< and operator== of Point2 and Point3 on the coordinates, src/Point.hh lines 27-33, 104-111 *)
Fixpoint lexlt (a b : list Z) : bool :=
  match a, b with
  | [], [] => false | [], _ => true | _, [] => false
  | x :: a, y :: b => if (x <? y)%Z then true else if (x =? y)%Z then lexlt a b else false
  end.
Fixpoint lexeq (a b : list Z) : bool :=
  match a, b with [], [] => true | x :: a, y :: b => (x =? y)%Z && lexeq a b | _, _ => false end.
Fixpoint sortedb (l : list nat) : bool := match l with a :: (b :: _) as t => (a <=? b) && sortedb t | _ => true end.
(* std::binary_search; the range must be sorted *)
Definition binary_search (l : list nat) (v : nat) : res bool := if sortedb l then Ok (existsb (Nat.eqb v) l) else UB.
(* std::find, as a position *)
Fixpoint findIndex (l : list nat) (v : nat) : option nat :=
  match l with [] => None | x :: t => if x =? v then Some 0 else option_map S (findIndex t v) end.

(* t is Point2<Key> or Point3<Key> and key gives the coordinates.  txt kind sender rank a b is the
   text of a message about the lists a and b. *)
Section Check.
  Context (t : ty) (key : denote t -> list Z) (txt : nat -> nat -> nat -> list (denote t) -> list (denote t) -> list Z).
  Context (n rank : nat) (hashes : list (denote t)) (nd : list nat) (sn : list (list nat)).
  Definition eqp (a b : denote t) : bool := lexeq (key a) (key b).
  Definition ltp (a b : denote t) : bool := lexlt (key a) (key b).

  (* lines 116-126: do the hashes agree, position by position *)
  Fixpoint same (recv : list (denote t)) (l : list nat) : res bool :=
    match recv, l with
    | h :: recv, i :: l => do g <- get hashes i; if eqp h g then same recv l else Ok false
    | _, _ => Ok true
    end.
  (* lines 100-130: this rank has got recv from p, which sent it to recvProc as its k-th neighbor *)
  Definition judge (p k recvProc : nat) (recv : list (denote t)) (result : list Z) : res (list Z) :=
    if (rank =? recvProc) && isnil result then
      match findIndex nd p with
      | None => Ok (txt 0 p rank [] [])
      | Some kk =>
          do l <- get sn kk;
          if negb (length recv =? length l) then
            (* line 111 prints sharedIDs[k].size(), not sharedIDs[kk].size() *)
            do _ <- get sn k; Ok (txt 1 p rank recv [])
          else
            do ok <- same recv l;
            if ok : bool then Ok result else do mine <- mmap (get hashes) l; Ok (txt 2 p rank recv mine)
      end
    else Ok result.

  (* lines 79-87 *)
  Definition pack (k : nat) : res (list Z) :=
    do l <- get sn k;
    do body <- mmap (fun i => do _ <- assert (i <? length hashes); do h <- get hashes i; Ok (serialize t h)) l;
    Ok (serialize TUnsigned (usize l) ++ concat body).
  (* lines 92-98 *)
  Definition unpackHashes (b : list Z) : res (list (denote t)) :=
    do (m, b) <- deserialize TUnsigned true 0%Z b;
    do (hs, b) <- dec_loop (deserialize t true (fresh t)) (Z.to_nat m) b;
    do _ <- assert (isnil b); Ok hs.

  (* lines 70-131 for the neighbors with numbers in ks *)
  Fixpoint checks (p : nat) (ks : list nat) (result : list Z) : cprog (list Z) :=
    match ks with
    | [] => CRet (Ok result)
    | k :: ks =>
        (* a rank other than p passes an uninitialised recvProc and bufSize *)
        clift (if rank =? p then get nd k else Ok 0) (fun rp =>
        CBcast p 1 [Z.of_nat rp] (fun r1 => match r1 with
        | [recvProc] =>
            clift (if rank =? p then pack k else Ok []) (fun buffer =>
            CBcast p 1 [usize buffer] (fun r2 => match r2 with
            | [bufSize] =>
                CBcast p (Z.to_nat bufSize) (resize 0%Z (Z.to_nat bufSize) buffer) (fun b =>
                clift (unpackHashes b) (fun recv =>
                clift (judge p k (Z.to_nat recvProc) recv result) (checks p ks)))
            | _ => CRet UB end))
        | _ => CRet UB end))
    end.

  (* lines 63-143: checkConsistentCommInfo, from the senders in procs on *)
  Fixpoint checkConsistent (label : list Z) (procs : list nat) (result : list Z) : cprog (list Z) :=
    match procs with
    | [] => CRet (Ok result)
    | p :: procs =>
        CBcast p 1 [usize nd] (fun r => match r with
        | [numChecks] =>
            cbind (checks p (seq 0 (Z.to_nat numChecks)) result) (fun result =>
            cbind (reduceToMaxString result rank n) (fun result =>
            if isnil result then checkConsistent label procs result
            else CRet (Ok (label ++ bytes " : " ++ result))))
        | _ => CRet UB end)
    end.

  (* lines 188-249: rank has got otherHashes from p *)
  Definition found (p : nat) (sorted other : list (denote t)) (empties : bool) (result : list Z) : res (list Z) :=
    let common := interb ltp sorted other in
    let nb := findIndex nd p in
    let some := match nb with Some _ => true | None => false end in
    let r1 := if isnil result && negb some && (0 <? length common) then txt 3 p rank [] [] else result in
    let r2 := if isnil r1 && empties && some && (length common =? 0) then txt 4 p rank [] [] else r1 in
    match nb with
    | Some k =>
        if isnil r2 && (0 <? length common) then
          do l <- get sn k;
          if negb (length l =? length common) then Ok (txt 5 p rank common [])
          else
            do mine <- mmap (get hashes) l;
            let my := sortb ltp mine in
            if (length my =? length common) && forallb (fun '(a, b) => eqp a b) (combine my common) then Ok r2
            else Ok (txt 6 p rank sorted common)
        else Ok r2
    | None => Ok r2
    end.

  (* lines 173-257: checkAllSharedElementsFound *)
  Fixpoint checkFound (label : list Z) (sorted : list (denote t)) (empties : bool) (procs : list nat) (result : list Z) : cprog (list Z) :=
    match procs with
    | [] => CRet (Ok result)
    | p :: procs =>
        let local := serialize (TVec t) sorted in
        CBcast p 1 [usize local] (fun r => match r with
        | [bufSize] =>
            CBcast p (Z.to_nat bufSize) (resize 0%Z (Z.to_nat bufSize) local) (fun b =>
            clift (deserialize (TVec t) true [] b) (fun '(other, _) =>
            clift (if rank =? p then Ok result else found p sorted other empties result) (fun result =>
            cbind (reduceToMaxString result rank n) (fun result =>
            if isnil result then checkFound label sorted empties procs result
            else CRet (Ok (label ++ bytes " : " ++ result))))))
        | _ => CRet UB end)
    end.

  (* lines 285-299 *)
  Definition dont_agree : list Z := bytes "Processors don't agree about who is talking to whom!".
  Fixpoint talking (procs : list nat) (result : list Z) : cprog (list Z) :=
    match procs with
    | [] => CRet (Ok result)
    | p :: procs =>
        CBcast p 1 [usize nd] (fun r => match r with
        | [num] =>
            if (0 <? num)%Z then
              CBcast p (Z.to_nat num) (resize 0%Z (Z.to_nat num) (map Z.of_nat nd)) (fun other =>
              clift (binary_search (map Z.to_nat other) rank) (fun b1 =>
              clift (binary_search nd p) (fun b2 =>
              talking procs (if Bool.eqb b1 b2 then result else dont_agree))))
            else talking procs result
        | _ => CRet UB end)
    end.

  (* checkDistributedTessellation, lines 274-327 *)
  Definition checkDistributed : cprog (list Z) :=
    cbind (talking (seq 0 n) []) (fun result =>
    cbind (reduceToMaxString result rank n) (fun result =>
    cbind (if isnil result then checkConsistent (bytes "Node") (seq 0 n) [] else CRet (Ok result)) (fun result =>
    cbind (if isnil result then checkFound (bytes "Node") (sortb ltp hashes) true (seq 0 n) [] else CRet (Ok result)) (fun result =>
    CRet (Ok (if isnil result then bytes "ok" else result)))))).
End Check.
