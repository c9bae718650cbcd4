(** operator <<: the text of intervals and containers.  A stream is the text written to it; [show]
    writes a domain value, [showv] an associated value. *)
From Verif Require Export MapModel SetModel ElemModel.
From Coq Require Export Ascii String.
From Coq Require Import List. Import ListNotations.
Open Scope list_scope.

Definition text : Type := list ascii.
Definition lit (s : string) : text := list_ascii_of_string s.

Section Print.
Context (X : dom) (k : kind) (show : D X -> text).
Notation I := (itv (D X)).
(** left_bracket, right_bracket, concept/interval.hpp 1452-1489, concept/interval_bounds.hpp 77-81 *)
Definition left_bracket (a : I) : text :=
  match k with
  | LO | OP => lit "("
  | RO | CL => lit "["
  | DD | DC => if bl (bd a) then lit "[" else lit "("
  end.
Definition right_bracket (a : I) : text :=
  match k with
  | RO | OP => lit ")"
  | LO | CL => lit "]"
  | DD | DC => if br (bd a) then lit "]" else lit ")"
  end.
(** operator << (stream, interval), concept/interval.hpp 1492-1505 *)
Definition print_itv (a : I) : text :=
  if is_empty X k a then left_bracket a ++ right_bracket a
  else left_bracket a ++ show (lo a) ++ lit "," ++ show (up a) ++ right_bracket a.
(** operator << (stream, interval_set), concept/interval_set.hpp 337-347.  The loop from begin() to
    end() visits [keys], see C13. *)
Definition print_set (t : tree (D X) unit) : text :=
  lit "{" ++ concat (map print_itv (keys X t)) ++ lit "}".
(** operator << (stream, interval_map), concept/interval_map.hpp 660-670.  The loop from begin() to
    end() visits the segments, see C31. *)
Definition print_seg {V} (showv : V -> text) (s : I * V) : text :=
  lit "(" ++ print_itv (fst s) ++ lit "->" ++ showv (snd s) ++ lit ")".
Definition print_map {V} (showv : V -> text) (t : tree (D X) V) : text :=
  lit "{" ++ concat (map (print_seg showv) (map (fun n => (nkey n, nval n)) (nodes t))) ++ lit "}".
(** operator << (stream, element map), concept/element_map.hpp 465-474 *)
Definition print_entry {V} (showv : V -> text) (e : D X * V) : text :=
  lit "(" ++ show (fst e) ++ lit "->" ++ showv (snd e) ++ lit ")".
Definition print_emap {V} (showv : V -> text) (m : list (D X * V)) : text :=
  lit "{" ++ concat (map (print_entry showv) m) ++ lit "}".
(** operator << (stream, element set), concept/element_set.hpp 118-127 *)
Definition print_eset (s : list (D X * unit)) : text :=
  lit "{" ++ concat (map (fun e => show (fst e) ++ lit " ") s) ++ lit "}".
End Print.
