(** Specification vocabulary for distinct equality. *)
From Verif Require Export MapSpec DistinctModel.
From Verif Require Export MapModel.

(** the intervals a map stores with a value that is not the identity element *)
Definition proton_keys (X : dom) (CC : codomain) (t : tree (D X) (C CC)) : list (itv (D X)) :=
  map fst (filter (fun s => negb (cc_eq (snd s) cc_zero)) (segs X CC t)).
