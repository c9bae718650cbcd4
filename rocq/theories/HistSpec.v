(** Vocabulary for histories of additions and subtractions (C79, C80). *)
From Verif Require Export MapSpec.
From Coq Require Export Permutation.

Section Hist.
Context (X : dom) (k : kind).
Notation I := (itv (D X)).
Notation sset := (tree (D X) unit).

(** for(s in l) if(s.adds) t += s.interval; else t -= s.interval;
    concept/interval_associator.hpp 304-307, 685-688 (the steps: SetModel.v, MapModel.v) *)
Definition s_history (st : style) (t : sset) (l : list (bool * I)) : res sset :=
  foldM (fun (t : sset) (s : bool * I) => if fst s then ' (t, _) <- s_add X k st t (snd s) ;; Ok t else s_subtract X k t (snd s)) t l.
(** what the last action of the history that concerns x did: true = added *)
Definition last_at (l : list (bool * I)) (x : D X) : option bool :=
  fold_left (fun (o : option bool) (s : bool * I) => if memb X k (snd s) x then Some (fst s) else o) l None.

Context (CC : codomain).
Notation V := (C CC).
Notation imap := (tree (D X) V).
(** the same for segments and maps *)
Definition m_history (p : mpar) (t : imap) (l : list (bool * (I * V))) : res imap :=
  foldM (fun (t : imap) (s : bool * (I * V)) => if fst s then m_add X k (mt CC p) t (fst (snd s)) (snd (snd s))
                    else m_subtract X k (mt CC p) t (fst (snd s)) (snd (snd s))) t l.
(** the values the actions have at x, in order, with their signs *)
Definition at_x (l : list (bool * (I * V))) (x : D X) : list (bool * V) :=
  map (fun s => (fst s, snd (snd s))) (filter (fun s => memb X k (fst (snd s)) x) l).
(** their balance: start with the identity element, combine each value with the combiner or its inverse *)
Definition balance (f : functor) (l : list (bool * V)) : V :=
  fold_left (fun (w : V) (s : bool * V) => combine CC (if fst s then f else inverse CC f) w (snd s)) l cc_zero.
(** nothing is subtracted where the balance of the preceding actions is the identity element *)
Definition covered (f : functor) (l : list (bool * (I * V))) : Prop :=
  forall l1 a v l2 x, l = l1 ++ (false, (a, v)) :: l2 -> mem X k a x -> balance f (at_x l1 x) <> cc_zero.
(** only additions *)
Definition adds (l : list (I * V)) : list (bool * (I * V)) := map (fun s => (true, s)) l.
(** the values added at x *)
Definition values_at (l : list (I * V)) (x : D X) : list V := map snd (filter (fun s => memb X k (fst s) x) l).
End Hist.
