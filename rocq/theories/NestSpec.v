(** Specification for C90: icl::map as the codomain of interval maps, maps of maps. *)
From Verif Require Export QuantSpec CollSpec ElemModel.
From Coq Require Bool.

Section IclMap.
Context (Y : dom) (CC : codomain) (absorbs total : bool).
Notation emap := (list (D Y * C CC)).
(** icl::map<Y, CC, Traits> with the default combiner and section *)
Definition icl_par : mpar := MPar MJoin absorbs total F_plus F_inter_section.
Notation M := (mt CC icl_par).
(** ascending keys and, in an absorber, no identity element *)
Fixpoint keys_sorted (l : emap) : bool :=
  match l with
  | n :: ((m :: _) as l') => ltb (fst n) (fst m) && keys_sorted l'
  | _ => true
  end.
Definition map_ok (l : emap) : bool := keys_sorted l && forallb (fun n => negb (absorbs && cc_eq (snd n) cc_zero)) l.
Definition emapt : Type := { l : emap | map_ok l = true }.
Definition entries (m : emapt) : emap := proj1_sig m.
Definition no_entries : emapt := exist _ [] eq_refl.
(** other sequences do not occur as results of the operators (NestThms.v) *)
Definition to_emap (r : res emap) : emapt :=
  match r with
  | Ok l => match Bool.bool_dec (map_ok l) true with left e => exist _ l e | right _ => no_entries end
  | Err _ => no_entries
  end.
(** the value of a key *)
Definition entry (m : emapt) (y : D Y) : option CC :=
  match find (fun n => eqb (fst n) y) (entries m) with Some n => Some (snd n) | None => None end.
(** +=, -=, &= and ^= are those of icl::map (ElemModel.v), |= is += (concept/element_associator.hpp
    233-238); it has set semantics or an inverse if its codomain has
    (type_traits/has_set_semantics.hpp 20-32, has_inverse in map.hpp 666-671), whether it is total
    or not. *)
Definition icl_map : codomain :=
  let op := fun (f : emap -> emap -> res emap) (m o : emapt) => to_emap (f (entries m) (entries o)) in
  Codomain emapt (fun m o => em_eqb Y M (entries m) (entries o)) (fun m o => em_ltb Y M (entries m) (entries o)) no_entries
    (op (em_add_map Y M)) (op (em_subtract_map Y M)) (fun m _ => m) (fun m _ => m)
    (op (em_and_map Y M)) (op (em_add_map Y M)) (op (em_flip_map Y M)) (fun m => m)
    (op (fun m o => Ok (em_insert_map Y M m o))) (op (em_erase_map Y M)) (cc_set_sem CC) (cc_invertible CC).
(** the map that is built by adding the given entries *)
Definition emap_of (l : emap) : emapt := to_emap (foldM (fun m n => em_add Y M m (fst n) (snd n)) [] l).
End IclMap.
(** pairs (y, u) of an icl::map of sets: u is in the set associated with y *)
Definition map_has {U : Type} (Y : dom) (CC : codomain) (has : CC -> U -> bool) (absorbs total : bool)
    (m : C (icl_map Y CC absorbs total)) (yu : D Y * U) : bool :=
  match entry Y CC absorbs m (fst yu) with Some v => has v (snd yu) | None => false end.
