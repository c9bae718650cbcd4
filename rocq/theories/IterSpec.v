(** Specification vocabulary for sequences of segments. *)
From Verif Require Export MapSpec.

(** the values of the segments of a list that contain x, combined in turn into o *)
Definition in_turn (X : dom) (k : kind) {V} (g : V -> option V -> option V) (l : list (itv (D X) * V)) (x : D X) (o : option V) : option V :=
  fold_left (fun o s => if memb X k (fst s) x then g (snd s) o else o) l o.

