(** Element-level specification vocabulary.  Property statements are phrased with
    these definitions only (plus the modelled API functions themselves). *)
From Verif Require Export Interval.

(** [x] precedes [y] / [x] does not come after [y] in the domain's order. *)
Definition lt {X : dom} (x y : D X) : Prop := ltb x y = true.
Definition le {X : dom} (x y : D X) : Prop := ltb y x = false.

(** Element [x] lies in interval [a] of kind [k]: the textbook meaning of
    [lo,up), (lo,up], [lo,up], (lo,up) and of a bounds-carrying interval. *)
Definition mem (X : dom) (k : kind) (a : itv (D X)) (x : D X) : Prop :=
  match k with
  | RO => le (lo a) x /\ lt x (up a)
  | LO => lt (lo a) x /\ le x (up a)
  | CL => le (lo a) x /\ le x (up a)
  | OP => lt (lo a) x /\ lt x (up a)
  | DD | DC =>
      (if bl (bd a) then le (lo a) x else lt (lo a) x) /\
      (if br (bd a) then le x (up a) else lt x (up a))
  end.

(** The interval has no element. *)
Definition no_elem (X : dom) (k : kind) (a : itv (D X)) : Prop :=
  forall x, ~ mem X k a x.

(** The borders of [a] leave the room the code needs to step from an open border to
    the adjacent element: an open lower border is not the greatest element of the
    domain, an open upper border is not the least one.  Only discrete domains step.
    This is what the code's BOOST_ASSERT(numeric_minimum::is_less_than(..)) and the
    absence of overflow in [++] say; every non-empty interval has it, and on a domain
    without extremes every interval has it. *)
Definition open_left (k : kind) {A} (a : itv A) : bool :=
  match k with LO | OP => true | DD | DC => negb (bl (bd a)) | _ => false end.
Definition open_right (k : kind) {A} (a : itv A) : bool :=
  match k with RO | OP => true | DD | DC => negb (br (bd a)) | _ => false end.
Definition edge_ok (X : dom) (k : kind) (a : itv (D X)) : Prop :=
  disc X = true ->
  (open_left k a = true -> exists y, lt (lo a) y) /\
  (open_right k a = true -> exists y, lt y (up a)).

(** Constructors of intervals from points step over the point when they have to build an
    open border next to it; [room_up]/[room_dn] say there is an element to step to. *)
Definition room_up (X : dom) (k : kind) (v : D X) : Prop :=
  match k with RO | OP => exists y, lt v y | _ => True end.
Definition room_dn (X : dom) (k : kind) (v : D X) : Prop :=
  match k with LO | OP => exists y, lt y v | _ => True end.

(** The domain is an integral type in its natural ascending order: it embeds into Z with
    a convex image, and [sub] is its difference. *)
Definition integral (X : dom) (phi : D X -> Z) (sub : D X -> D X -> Z) : Prop :=
  (forall x y, ltb x y = (phi x <? phi y)%Z) /\
  (forall x y, sub y x = phi y - phi x)%Z /\
  (forall x y z, phi x <= z <= phi y -> exists w, phi w = z)%Z.

(** [l] lists exactly the elements satisfying P, without repetition. *)
Definition enumerates (X : dom) (P : D X -> Prop) (l : list (D X)) : Prop :=
  NoDup l /\ forall x, In x l <-> P x.

(** x and y lie in one stored interval of the list [l] *)
Definition same_seg (X : dom) (k : kind) (l : list (itv (D X))) (x y : D X) : Prop :=
  exists a, In a l /\ mem X k a x /\ mem X k a y.

(** The library looks an element x up with an interval it builds from x; that interval
    must contain x.  On a discrete domain x must not be the extreme element an open border
    would have to step over; on a dense domain ++x (--x) must be greater (smaller) than x. *)
Definition has_room (X : dom) (k : kind) (x : D X) : Prop :=
  if disc X then room_up X k x /\ room_dn X k x
  else match k with RO => lt x (next x) | LO => lt (prior x) x | _ => True end.
