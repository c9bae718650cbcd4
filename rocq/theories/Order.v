(** Strict weak orders given by boolean functions, and a decision tactic
    [ord] for them.  Nothing here models code: it is proof infrastructure.

    [ord] works by ranking: any finite list of elements of a strict weak order
    embeds into Z, so order reasoning over finitely many terms reduces to
    linear arithmetic. *)
From Coq Require Export List Bool ZArith Lia ZifyBool Arith.
Export ListNotations.

Definition is_swo {A} (lt : A -> A -> bool) : Prop :=
  (forall x, lt x x = false) /\
  (forall x y z, lt x y = true -> lt y z = true -> lt x z = true) /\
  (forall x y z, lt x y = true -> lt x z = true \/ lt z y = true).

Lemma filter_length_le {A} (p q : A -> bool) l :
  (forall x, p x = true -> q x = true) ->
  length (filter p l) <= length (filter q l).
Proof.
  intros H; induction l as [|a l IH]; cbn [filter]; [lia|].
  destruct (p a) eqn:E; [rewrite (H _ E); cbn [length]; lia|].
  destruct (q a); cbn [length]; lia.
Qed.

Lemma filter_length_lt {A} (p q : A -> bool) l c :
  (forall x, p x = true -> q x = true) -> In c l -> p c = false -> q c = true ->
  length (filter p l) < length (filter q l).
Proof.
  intros H; induction l as [|a l IH]; intros Hin Hp Hq; [destruct Hin|].
  cbn [filter]; destruct Hin as [->|Hin].
  - rewrite Hp, Hq; cbn [length]. pose proof (filter_length_le p q l H); lia.
  - specialize (IH Hin Hp Hq).
    destruct (p a) eqn:E; [rewrite (H _ E); cbn [length]; lia|].
    destruct (q a); cbn [length]; lia.
Qed.

Lemma rank {A} (lt : A -> A -> bool) : is_swo lt -> forall l : list A,
  exists f : A -> Z, forall x y, In x l -> In y l -> lt x y = (f x <? f y)%Z.
Proof.
  intros (Hi & Ht & Hn) l.
  exists (fun c => Z.of_nat (length (filter (fun x => lt x c) l))).
  intros x y Hx Hy. destruct (lt x y) eqn:E.
  - symmetry. apply Z.ltb_lt, inj_lt.
    apply filter_length_lt with x; auto. intros z Hz; eauto.
  - symmetry. apply Z.ltb_ge, inj_le.
    apply filter_length_le. intros z Hz.
    destruct (Hn _ _ x Hz) as [|H]; congruence.
Qed.

Ltac in_list x l :=
  lazymatch l with
  | nil => constr:(false)
  | x :: _ => constr:(true)
  | _ :: ?t => in_list x t
  end.

Ltac collect lt l :=
  match goal with
  | _ : context [lt ?x _] |- _ =>
      let b := in_list x l in
      lazymatch b with false => collect lt constr:(x :: l) end
  | _ : context [lt _ ?x] |- _ =>
      let b := in_list x l in
      lazymatch b with false => collect lt constr:(x :: l) end
  | |- context [lt ?x _] =>
      let b := in_list x l in
      lazymatch b with false => collect lt constr:(x :: l) end
  | |- context [lt _ ?x] =>
      let b := in_list x l in
      lazymatch b with false => collect lt constr:(x :: l) end
  | _ => l
  end.

Ltac in_solve := cbn [In]; repeat (first [left; reflexivity | right]).

(** [to_rank lt H]: replace every [lt x y] by a comparison of ranks. *)
Ltac to_rank A lt H :=
  let l := collect lt constr:(@nil A) in
  let f := fresh "rk" in
  let Hf := fresh "Hrk" in
  destruct (rank lt H l) as [f Hf];
  repeat match goal with
         | K : context [lt ?x ?y] |- _ => rewrite (Hf x y) in K by in_solve
         | |- context [lt ?x ?y] => rewrite (Hf x y) by in_solve
         end;
  clear Hf.
