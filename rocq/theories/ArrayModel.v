(* Model of src/removeElements.hh and src/bisectSearch.hh. *)
From Verif Require Import Base.

(* The pre-condition loop, removeElements.hh lines 40-44: adjacent entries increase. *)
Fixpoint strictly_sorted (l : list nat) : bool :=
  match l with
  | a :: (b :: _) as t => (a <? b) && strictly_sorted t
  | _ => true
  end.

Section RemoveElements.
  Context {V : Type}.

  (* The while loop, lines 62-72.  [del] is the range [delItr, endItr).
     [fuel] bounds the iterations. *)
  Fixpoint re_loop (fuel n : nat) (del : list nat) (i j : nat) (vec : list V) (o2n : list Z)
    : res (nat * nat * list V * list Z) :=
    match del with
    | [] => Ok (i, j, vec, o2n)
    | d :: del' =>
        if j =? n then Ok (i, j, vec, o2n) else
        match fuel with
        | O => Hang
        | S fuel =>
            if j =? d then re_loop fuel n del' i (S j) vec o2n
            else do o2n <- set o2n j (Z.of_nat i);
                 do x <- get vec j;
                 do vec <- set vec i x;
                 re_loop fuel n del (S i) (S j) vec o2n
        end
    end.

  (* lines 73-76: std::copy of the tail [j, n) to position i, and its old2new entries *)
  Definition re_tail (n i j : nat) (vec : list V) (o2n : list Z) : list V * list Z :=
    if j =? n then (vec, o2n)
    else (firstn i vec ++ skipn j vec ++ skipn (i + (n - j)) vec,
          firstn j o2n ++ map Z.of_nat (seq i (n - j))).

  (* removeElements, lines 23-89; returns the new contents of vec and old2new.
     index_t is modelled by nat (sizes do not overflow). *)
  Definition removeElements (vec : list V) (elements : list nat) : res (list V * list Z) :=
    let n := length vec in
    let newSize := n - length elements in
    match elements with
    | [] => Ok (vec, map Z.of_nat (seq 0 n))                    (* line 82 *)
    | e0 :: rest =>
        do _ <- assert (strictly_sorted elements);              (* lines 40-44 *)
        do _ <- assert (last elements 0 <? n);                  (* line 46 *)
        let o2n := map Z.of_nat (seq 0 e0) ++ repeat (-1)%Z (n - e0) in   (* lines 31, 51 *)
        do (i, j, vec, o2n) <- re_loop n n rest e0 (S e0) vec o2n;        (* lines 57-72 *)
        let (vec, o2n) := re_tail n i j vec o2n in
        let vec := firstn newSize vec in                        (* line 79 *)
        do _ <- assert (length vec =? newSize);                 (* line 86 *)
        do _ <- assert (length o2n =? n);                       (* line 87 *)
        Ok (vec, o2n)
    end.
End RemoveElements.

(* bisectSearch.hh lines 25-32.  DataType is modelled by Z.  jm = (ju+jl)/2 with C++
   truncating division; ju+jl >= 0 whenever the loop runs (ju - jl > 1, jl >= -1), so
   the quotient is the same as Z.quot. *)
Local Open Scope Z_scope.

(* table[k] for a signed k *)
Definition getz {A} (l : list A) (k : Z) : res A :=
  if k <? 0 then UB else get l (Z.to_nat k).

Fixpoint bs_loop (fuel : nat) (ascnd : bool) (table : list Z) (val jl ju : Z) : res (Z * Z) :=
  if ju - jl >? 1 then
    match fuel with
    | O => Hang
    | S fuel =>
        let jm := Z.quot (ju + jl) 2 in
        do t <- getz table jm;
        if Bool.eqb (val >=? t) ascnd then bs_loop fuel ascnd table val jm ju
        else bs_loop fuel ascnd table val jl jm
    end
  else Ok (jl, ju).

(* bisectSearch.hh lines 16-41.  The post-condition (lines 36-39) is evaluated with
   C++ short-circuit semantics. *)
Definition bisectSearch (table : list Z) (val : Z) : res Z :=
  let n := Z.of_nat (length table) in
  do tn <- getz table (n - 1);
  do t0 <- getz table 0;
  let ascnd := tn >=? t0 in
  do (jl, ju) <- bs_loop (length table + 1) ascnd table val (-1) n;
  do _ <- assert (ju - jl =? 1);
  if (jl =? -1) && Bool.eqb (val <=? t0) ascnd then Ok jl
  else if (jl =? n - 1) && Bool.eqb (val >=? tn) ascnd then Ok jl
  else do tl <- getz table jl;
       if Bool.eqb (val >=? tl) ascnd then
         do tu <- getz table ju;
         do _ <- assert (Bool.eqb (val <=? tu) ascnd);
         Ok jl
       else Abort.
