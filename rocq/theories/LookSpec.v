(** Specification vocabulary for ranges of iterators. *)
From Verif Require Export MapSpec.

Section LookSpec.
Context (X : dom) (k : kind) {V : Type}.
Notation I := (itv (D X)).
Notation tree := (tree (D X) V).

(** for(it = first; it != past; ++it) show( *it ), at most fuel steps *)
Fixpoint walk (fuel : nat) (t : tree) (first past : Tree.iter) : res (list (I * V)) :=
  if iter_eqb first past then Ok []
  else match fuel with
       | 0 => Err Fuel
       | S fuel => a <- key t first ;; v <- val t first ;; next_ <- incr_it t first ;;
                   l <- walk fuel t next_ past ;; Ok ((a, v) :: l)
       end.
(** iterating from first to past shows the segments l *)
Definition shows (t : tree) (first past : Tree.iter) (l : list (I * V)) : Prop :=
  exists fuel, walk fuel t first past = Ok l.
(** the iterator shows the segment (a, v) *)
Definition at_seg (t : tree) (it : Tree.iter) (s : I * V) : Prop := key t it = Ok (fst s) /\ val t it = Ok (snd s).

(** every element of a precedes every element of b; a and b have a common element *)
Definition before (a b : I) : Prop := forall x y, mem X k a x -> mem X k b y -> lt x y.
Definition meets (a b : I) : Prop := exists x, mem X k a x /\ mem X k b x.
End LookSpec.
