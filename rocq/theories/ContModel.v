(* Model of the planar containers of particles of voro_2d: container_2d of container_2d.hh and .cc and
   c_loop_all_2d of c_loops_2d.hh.  Coordinates are exact rationals in place of double.  The arrays id, p
   and co of a block are the list of its particles; add_particle_memory, which makes them longer, is left
   out, and so is the error when they get too long, and overflow of the products of block numbers. *)
From Verif Require Import Base Plane MeshEditorModel HullModel VoroModel.
From Coq Require Import QArith.
Local Open Scope nat_scope.

Definition particle := (Z * p2)%type.
Record cont := mkC { c_ax : Q; c_bx : Q; c_ay : Q; c_by : Q; c_nx : nat; c_ny : nat; c_xper : bool; c_yper : bool; c_blocks : list (list particle) }.
(* container_base_2d::container_base_2d, container_2d.cc lines 28-41 *)
Definition new_cont (ax bx ay by_ : Q) (nx ny : nat) (xper yper : bool) : cont := mkC ax bx ay by_ nx ny xper yper (repeat [] (nx * ny)).

(* step_int, step_mod and step_div, v_base_2d.hh lines 72, 79 and 86: C++ cuts off towards zero *)
Definition step_int (a : Q) : res Z :=
  do z <- as_int a; if Qlt_bool a 0 then (if (z =? - 2 ^ 31)%Z then UB else Ok (z - 1)%Z) else Ok z.
Definition step_mod (a b : Z) : Z := if (0 <=? a)%Z then Z.rem a b else (b - 1 - Z.rem (b - 1 - a) b)%Z.
Definition step_div (a b : Z) : Z := if (0 <=? a)%Z then Z.quot a b else (-1 + Z.quot (a + 1) b)%Z.

(* one axis of put_remap, container_2d.cc lines 172-174 and 176-178, with boxx and xsp of v_base_2d.cc lines 26-27: the
   block and the position, or none if it is outside *)
Definition locate (per : bool) (lo hi : Q) (n : nat) (x : Q) : res (option (nat * Q)) :=
  let box := ((hi - lo) / inject_Z (Z.of_nat n))%Q in
  do i <- step_int ((x - lo) * (1 / box))%Q;
  if per then let l := step_mod i (Z.of_nat n) in Ok (Some (Z.to_nat l, x + box * inject_Z (l - i)))%Q
  else if ((i <? 0) || (Z.of_nat n <=? i))%Z then Ok None else Ok (Some (Z.to_nat i, x)).
(* put_remap, lines 169-182 *)
Definition put_remap (c : cont) (p : p2) : res (option (nat * p2)) :=
  do a <- locate (c_xper c) (c_ax c) (c_bx c) (c_nx c) (fst p);
  match a with
  | None => Ok None
  | Some (i, x) => do b <- locate (c_yper c) (c_ay c) (c_by c) (c_ny c) (snd p);
      match b with None => Ok None | Some (j, y) => Ok (Some (i + c_nx c * j, (x, y))) end
  end.
(* put and put_locate_block, lines 81-89 and 149-158; totpar, a second count, is left out *)
Definition put (c : cont) (q : particle) : res cont :=
  do r <- put_remap c (snd q);
  match r with
  | None => Ok c
  | Some (ij, p) => do b <- get (c_blocks c) ij; do bs <- set (c_blocks c) ij (b ++ [(fst q, p)]);
      Ok (mkC (c_ax c) (c_bx c) (c_ay c) (c_by c) (c_nx c) (c_ny c) (c_xper c) (c_yper c) bs)
  end.
(* total_particles, container_2d.hh lines 260-264 *)
Definition total_particles (c : cont) : nat := fold_left (fun t b => t + length b) (c_blocks c) 0.

(* c_loop_all_2d, c_loops_2d.hh lines 160-202: next_block of lines 193-201; the state is i, j and ij *)
Section Loop.
  Variable (c : cont).
  Definition next_block (st : nat * nat * nat) : option (nat * nat * nat) :=
    let '(i, j, ij) := st in
    if S i =? c_nx c then (if S j =? c_ny c then None else Some (0, S j, S ij)) else Some (S i, j, S ij).
  (* the loops over empty blocks of start and inc, lines 172 and 182-184 *)
  Fixpoint find_block (fuel : nat) (st : nat * nat * nat) : res (option (nat * nat * nat)) :=
    do b <- get (c_blocks c) (snd st);
    if length b =? 0 then
      match fuel with
      | O => Hang
      | S n => match next_block st with None => Ok None | Some st => find_block n st end
      end
    else Ok (Some st).
  (* do { visit } while(loop.inc()) from particle q of a block; inc is lines 178-187 *)
  Fixpoint visit (fuel : nat) (st : nat * nat * nat) (q : nat) : res (list particle) :=
    do b <- get (c_blocks c) (snd st); do p <- get b q;
    match fuel with
    | O => Hang
    | S n =>
        if length b <=? S q then
          match next_block st with
          | None => Ok [p]
          | Some st => do f <- find_block (length (c_blocks c)) st; match f with None => Ok [p] | Some st => do t <- visit n st 0; Ok (p :: t) end
          end
        else do t <- visit n st (S q); Ok (p :: t)
    end.
  (* if(loop.start()) do { visit } while(loop.inc()); as in VoroPP_2d.cc lines 235-293 *)
  Definition visit_all : res (list particle) :=
    do f <- find_block (length (c_blocks c)) (0, 0, 0);
    match f with None => Ok [] | Some st => visit (S (total_particles c)) st 0 end.
End Loop.
