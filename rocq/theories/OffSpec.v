(* Reading an OFF file the way its format says: the header gives the numbers of points, facets and
   edges; then come that many lines of points and that many lines of facets. *)
From Verif Require Import Base OffModel.

Section Spec.
  Context {V : Type}.
  Fixpoint reals (l : list (word V)) : option (list V) :=
    match l with [] => Some [] | WReal v :: l => match reals l with Some t => Some (v :: t) | None => None end | _ => None end.
  Fixpoint nums (l : list (word V)) : option (list Z) :=
    match l with [] => Some [] | WNum z :: l => match nums l with Some t => Some (z :: t) | None => None end | _ => None end.
  (* a facet: the number of its points and then the points *)
  Definition facet (l : list (word V)) : option (list Z) :=
    match nums l with Some (n :: f) => if (n =? Z.of_nat (length f))%Z then Some f else None | _ => None end.
  (* n entries, and the lines after them *)
  Fixpoint entries {X} (parse : list (word V) -> option X) (n : nat) (ls : list (list (word V))) : option (list X * list (list (word V))) :=
    match n, ls with
    | 0, _ => Some ([], ls)
    | S n, l :: ls => match parse l, entries parse n ls with Some x, Some (xs, rest) => Some (x :: xs, rest) | _, _ => None end
    | _, _ => None
    end.
  Record contents := mkContents { points : list (list V); polygons : list (list Z); nedges : Z; leftover : list (list (word V)) }.
  Definition readOFF (file : list (list (word V))) : option contents :=
    match file with
    | [WOff] :: [WNum np; WNum nf; WNum ne] :: ls =>
        match entries reals (Z.to_nat np) ls with
        | Some (ps, ls) => match entries facet (Z.to_nat nf) ls with Some (fs, ls) => Some (mkContents ps fs ne ls) | None => None end
        | None => None
        end
    | _ => None
    end.
End Spec.

(* n is the number of different edges, direction aside, of the two-point facets fs *)
Definition EdgeCount (fs : list (list Z)) (n : Z) : Prop :=
  exists es : list (Z * Z), NoDup es /\ Z.of_nat (length es) = n /\
    (forall a b, In (a, b) es -> (a <= b)%Z /\ (In [a; b] fs \/ In [b; a] fs)) /\
    (forall a b, In [a; b] fs -> In (a, b) es \/ In (b, a) es).
