(* Model of the planar cells of voro_2d: voronoicell_neighbor_2d of voro_2d/cell_2d.hh and .cc.
   Coordinates are exact rationals in place of double.  The arrays ed, pts and ne are memories of
   which an entry that was never written cannot be read; add_memory_vertices and add_memory_ds, which
   make the arrays longer, are left out, and so is the error when they get too long.  The positions
   pts and the neighbors ne, which are written together, are one memory.  ed[2i] is the next corner,
   or none for -1, and ed[2i+1] the one before. *)
From Verif Require Import Base Plane MeshEditorModel.
From Coq Require Import QArith.
Local Open Scope nat_scope.

Definition corner := (p2 * Z)%type.
Record vcell := mkV { vp : nat; vx : nat -> option corner; vnext : nat -> option nat; vprev : nat -> option nat }.
Definition peek {A} (m : nat -> option A) (i : nat) : res A := match m i with Some a => Ok a | None => UB end.
Definition poke {A} (m : nat -> option A) (i : nat) (a : option A) : nat -> option A := fun j => if j =? i then a else m j.
(* config.hh line 56 *)
Definition cut_tol : Q := 1 # 10000000000.

(* voronoicell_neighbor_2d::init and init_base, cell_2d.cc lines 26-34 and 496-499: twice the size *)
Definition vinit (xmin xmax ymin ymax : Q) : vcell :=
  let lx := (2 * xmin)%Q in let hx := (2 * xmax)%Q in let ly := (2 * ymin)%Q in let hy := (2 * ymax)%Q in
  mkV 4 (fun i => nth_error [((lx, ly), -3); ((hx, ly), -2); ((hx, hy), -4); ((lx, hy), -1)]%Z i)
    (fun i => nth_error [1; 2; 3; 0] i) (fun i => nth_error [3; 0; 1; 2] i).

Section Cut.
  Variable (x y rsq : Q).
  (* pos, cell_2d.hh lines 106-108 *)
  Definition vpos (v : corner) : Q := (x * fst (fst v) + y * snd (fst v) - rsq)%Q.
  Definition vpos_at (s : vcell) (i : nat) : res Q := do v <- peek (vx s) i; Ok (vpos v).

  (* the searches of nplane, lines 137-142 and 144-149: along the links until a corner is outside, or
     the one to stop at is reached *)
  Fixpoint seek (s : vcell) (link : nat -> option nat) (stop : nat) (fuel : nat) (i : nat) (u : Q) : res (option (nat * Q)) :=
    if Qlt_bool u cut_tol then
      match fuel with
      | O => Hang
      | S n => do j <- peek link i; do w <- vpos_at s j;
          if j =? stop then Ok None else seek s link stop n j w
      end
    else Ok (Some (i, u)).
  (* the searches of nplane_cut, lines 167-174 and 194-201: the corners passed go on the stack; the
     result is the stack, l, the corner reached, its position and whether it is the one to stop at *)
  Fixpoint sweep (s : vcell) (link : nat -> option nat) (stop : nat) (fuel : nat) (stk : list nat) (l : Q) (i : nat) (u : Q) : res (list nat * Q * nat * Q * bool) :=
    if Qlt_bool cut_tol u then
      match fuel with
      | O => Hang
      | S n => do j <- peek link i; do w <- vpos_at s j;
          if j =? stop then Ok (stk ++ [i], u, j, w, true) else sweep s link stop n (stk ++ [i]) u j w
      end
    else Ok (stk, l, i, u, false).

  (* lines 183-185 and 213-215 *)
  Definition cross_at (a b : p2) (ua ub : Q) : p2 :=
    let fac := (1 / (ua - ub))%Q in ((fst b * ua - fst a * ub) * fac, (snd b * ua - snd a * ub) * fac)%Q.

  (* while(ed[2*--p]==-1); line 228 *)
  Fixpoint last_live (s : vcell) (n : nat) : res nat :=
    match n with O => UB | S q => match vnext s q with None => last_live s q | Some _ => Ok q end end.
  (* one corner of the stack, lines 227-239 *)
  Definition fill (s : vcell) (up : nat) : res vcell :=
    do p <- last_live s (vp s);
    if up <? p then
      do n <- peek (vnext s) p; let pv := poke (vprev s) n (Some up) in
      do m <- peek pv p; let nx := poke (vnext s) m (Some up) in
      do v <- peek (vx s) p;
      do n' <- peek nx p; let nx := poke nx up (Some n') in
      do m' <- peek pv p; let pv := poke pv up (Some m') in
      Ok (mkV p (poke (vx s) up (Some v)) nx pv)
    else Ok (mkV (S p) (vx s) (vnext s) (vprev s)).
  (* lines 223-239: the stack is emptied from its end *)
  Definition drop (s : vcell) (stk : list nat) : res vcell :=
    mfold fill (rev stk) (mkV (vp s) (vx s) (fold_left (fun nx i => poke nx i None) stk (vnext s)) (vprev s)).

  (* nplane_cut, lines 157-241 *)
  Definition nplane_cut (p_id : Z) (s : vcell) (u : Q) (up : nat) : res (bool * vcell) :=
    do up2 <- peek (vnext s) up; do u2 <- vpos_at s up2;
    do r <- sweep s (vnext s) up (vp s) [up] u up2 u2;
    let '(stk, l, up2, u2, gone) := r in
    if gone then Ok (false, s) else
    do (cp, s) <- (if Qlt_bool (- cut_tol) u2 then Ok (up2, s) else
      do lp <- peek (vprev s) up2; do a <- peek (vx s) lp; do b <- peek (vx s) up2;
      Ok (vp s, mkV (S (vp s)) (poke (vx s) (vp s) (Some (cross_at (fst b) (fst a) u2 l, snd a)))
        (poke (vnext s) (vp s) (Some up2)) (poke (vprev s) up2 (Some (vp s)))));
    do up3 <- peek (vprev s) up; do u3 <- vpos_at s up3;
    do r <- sweep s (vprev s) up2 (vp s) stk u up3 u3;
    let '(stk, l, up3, u3, _) := r in
    do s <- (if Qlt_bool cut_tol u3 then
        do v <- peek (vx s) up3;
        Ok (mkV (vp s) (poke (vx s) up3 (Some (fst v, p_id))) (poke (vnext s) up3 (Some cp)) (poke (vprev s) cp (Some up3)))
      else
        do lp <- peek (vnext s) up3; do a <- peek (vx s) lp; do b <- peek (vx s) up3;
        let p := vp s in
        Ok (mkV (S p) (poke (vx s) p (Some (cross_at (fst b) (fst a) u3 l, p_id)))
          (poke (poke (vnext s) p (Some cp)) up3 (Some p)) (poke (poke (vprev s) cp (Some p)) p (Some up3))));
    do s <- drop s stk;
    Ok (true, s).
  (* nplane, lines 125-154 *)
  Definition nplane (p_id : Z) (s : vcell) : res (bool * vcell) :=
    do u <- vpos_at s 0;
    if Qlt_bool u cut_tol then
      do up2 <- peek (vnext s) 0; do u2 <- vpos_at s up2;
      do up3 <- peek (vprev s) 0; do u3 <- vpos_at s up3;
      do f <- (if Qlt_bool u3 u2 then seek s (vnext s) up3 (vp s) up2 u2 else seek s (vprev s) up2 (vp s) up3 u3);
      match f with None => Ok (true, s) | Some (up, u) => nplane_cut p_id s u up end
    else nplane_cut p_id s u 0.
End Cut.
(* plane through the middle to a particle, cell_2d.hh lines 157-160 *)
Definition nplane_to (d : p2) (p_id : Z) (s : vcell) : res (bool * vcell) :=
  nplane (fst d) (snd d) (fst d * fst d + snd d * snd d)%Q p_id s.
(* cuts by one particle after the other, until one says that nothing is left: the use of nplane in
   v_compute_2d.cc lines 293-308 *)
Fixpoint cuts (ds : list (p2 * Z)) (s : vcell) : res (bool * vcell) :=
  match ds with
  | [] => Ok (true, s)
  | (d, i) :: t => do (b, s) <- nplane_to d i s; if b : bool then cuts t s else Ok (false, s)
  end.
(* voronoicell_base_2d::vertices and neighbors, lines 245-252 and 491-494 *)
Definition vvertices (s : vcell) : res (list p2) :=
  mmap (fun i => do v <- peek (vx s) i; Ok (fst (fst v) * (1 # 2), snd (fst v) * (1 # 2))%Q) (seq 0 (vp s)).
Definition vneighbors (s : vcell) : res (list Z) := mmap (fun i => do v <- peek (vx s) i; Ok (snd v)) (seq 0 (vp s)).
