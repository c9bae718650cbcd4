(** Element containers: lookups, insertion and erasure in a sorted sequence. *)
From Verif Require Import ElemSpec.
From Coq Require Import Sorted.

Section ElemFacts.
Context (X : dom) (HT : strict_total X).
Notation K := (D X).

Lemma el_irr (x : K) : ltb x x = false. Proof. apply HT. Qed.
Lemma el_tr (x y z : K) : ltb x y = true -> ltb y z = true -> ltb x z = true. Proof. apply HT. Qed.
Lemma el_tot (x y : K) : ltb x y = true \/ x = y \/ ltb y x = true. Proof. apply HT. Qed.
Lemma el_asym (x y : K) : ltb x y = true -> ltb y x = false.
Proof. intros H. destruct (ltb y x) eqn:E; [|reflexivity]. pose proof (el_tr _ _ _ H E). rewrite el_irr in H0. discriminate. Qed.
Lemma eqb_eq (x y : K) : eqb x y = true <-> x = y.
Proof.
  unfold eqb. split.
  - destruct (el_tot x y) as [H|[H|H]]; [rewrite H; cbn; discriminate|auto|rewrite H; cbn; rewrite andb_comm; discriminate].
  - intros ->. rewrite el_irr. reflexivity.
Qed.
Lemma eqb_refl (x : K) : eqb x x = true. Proof. apply eqb_eq. reflexivity. Qed.
Lemma eqb_neq (x y : K) : eqb x y = false <-> x <> y.
Proof. rewrite <- eqb_eq. destruct (eqb x y); split; congruence. Qed.
Lemma el_dec (x y : K) : {x = y} + {x <> y}.
Proof. destruct (eqb x y) eqn:E; [left; apply eqb_eq; exact E|right; apply eqb_neq; exact E]. Defined.
Lemma ltb_neq (x y : K) : ltb x y = true -> x <> y.
Proof. intros H ->. rewrite el_irr in H. discriminate. Qed.
Lemma nlt_le (x y : K) : ltb x y = false -> ltb y x = true \/ x = y.
Proof. intros H. destruct (el_tot x y) as [E|[E|E]]; [congruence|auto|auto]. Qed.
(** order facts by cases *)
Lemma lt_le_lt (x y z : K) : ltb x y = true -> ltb z y = false -> ltb x z = true.
Proof. intros H E. destruct (nlt_le _ _ E) as [F|<-]; [eapply el_tr; eauto|exact H]. Qed.
Lemma le_lt_lt (x y z : K) : ltb y x = false -> ltb y z = true -> ltb x z = true.
Proof. intros E H. destruct (nlt_le _ _ E) as [F|<-]; [eapply el_tr; eauto|exact H]. Qed.

Section Seq.
Context {V : Type}.
Notation elems := (list (K * V)).
Notation sorted := (@esorted X V).
Notation at_ := (@eat X V).

(* ---------------------------------------------------------------- sorted sequences *)
Lemma sorted_nil : sorted []. Proof. constructor. Qed.
Lemma sorted_cons (n : K * V) l : sorted (n :: l) <-> sorted l /\ forall m, In m l -> ltb (fst n) (fst m) = true.
Proof.
  unfold esorted. split.
  - intros H. inversion H; subst. split; [assumption|]. rewrite Forall_forall in H3. exact H3.
  - intros [H F]. constructor; [exact H|]. apply Forall_forall. exact F.
Qed.
Lemma sorted_app (l1 l2 : elems) :
  sorted (l1 ++ l2) <-> sorted l1 /\ sorted l2 /\ forall a b, In a l1 -> In b l2 -> ltb (fst a) (fst b) = true.
Proof.
  induction l1 as [|n l1 IH]; cbn [app].
  - split; [intros H; repeat split; [constructor|exact H|intros a b []]|intros (_ & H & _); exact H].
  - rewrite !sorted_cons, IH. split.
    + intros ((S1 & S2 & F) & G). repeat split; auto.
      * intros m Hm. apply G. apply in_or_app. auto.
      * intros a b [<-|Ha] Hb; [apply G; apply in_or_app; auto|apply F; auto].
    + intros ((S1 & G) & S2 & F). repeat split; auto.
      * intros a b Ha Hb. apply F; [right; exact Ha|exact Hb].
      * intros m Hm. apply in_app_or in Hm. destruct Hm as [Hm|Hm]; [apply G; exact Hm|apply F; [left; reflexivity|exact Hm]].
Qed.

(* ---------------------------------------------------------------- the function *)
Lemma eat_app (l1 l2 : elems) x : at_ (l1 ++ l2) x = match at_ l1 x with Some v => Some v | None => at_ l2 x end.
Proof.
  unfold eat. induction l1 as [|n l1 IH]; cbn [app find]; [reflexivity|].
  destruct (eqb (fst n) x); [reflexivity|exact IH].
Qed.
Lemma eat_cons (n : K * V) l x : at_ (n :: l) x = if eqb (fst n) x then Some (snd n) else at_ l x.
Proof. unfold eat. cbn [find]. destruct (eqb (fst n) x); reflexivity. Qed.
Lemma eat_in (l : elems) x v : at_ l x = Some v -> In (x, v) l.
Proof.
  induction l as [|n l IH]; [discriminate|]. rewrite eat_cons. destruct (eqb (fst n) x) eqn:E.
  - intros [= <-]. apply eqb_eq in E. subst x. left. destruct n; reflexivity.
  - intros H. right. auto.
Qed.
Lemma eat_none (l : elems) x : at_ l x = None <-> ~ In x (map fst l).
Proof.
  induction l as [|n l IH]; [cbn; tauto|]. rewrite eat_cons. cbn [map In].
  destruct (eqb (fst n) x) eqn:E.
  - apply eqb_eq in E. split; [discriminate|tauto].
  - apply eqb_neq in E. rewrite IH. tauto.
Qed.
Lemma eat_some_key (l : elems) x : at_ l x <> None <-> In x (map fst l).
Proof.
  pose proof (eat_none l x). destruct (at_ l x) as [v|] eqn:E.
  - split; [|discriminate]. intros _. apply eat_in in E. apply (in_map fst) in E. exact E.
  - split; [congruence|]. intros H0. destruct H as [H _]. exfalso. exact (H eq_refl H0).
Qed.
Lemma eat_sorted (l : elems) x v : sorted l -> (at_ l x = Some v <-> In (x, v) l).
Proof.
  intros S. split; [apply eat_in|]. induction l as [|n l IH]; intros H; [destruct H|].
  apply sorted_cons in S. destruct S as [S F]. rewrite eat_cons. destruct H as [->|H].
  - cbn. rewrite eqb_refl. reflexivity.
  - specialize (F _ H). cbn in F. apply ltb_neq in F. apply eqb_neq in F. rewrite F. auto.
Qed.
Lemma eat_below (l : elems) x : (forall n, In n l -> ltb (fst n) x = true) -> at_ l x = None.
Proof. intros H. apply eat_none. intros E. apply in_map_iff in E. destruct E as (n & <- & Hn). specialize (H _ Hn). rewrite el_irr in H. discriminate. Qed.
Lemma eat_above (l : elems) x : (forall n, In n l -> ltb x (fst n) = true) -> at_ l x = None.
Proof. intros H. apply eat_none. intros E. apply in_map_iff in E. destruct E as (n & <- & Hn). specialize (H _ Hn). rewrite el_irr in H. discriminate. Qed.
Lemma eat_mid (l1 l2 : elems) x v y : sorted (l1 ++ (x, v) :: l2) ->
  at_ (l1 ++ (x, v) :: l2) y = if eqb x y then Some v else at_ (l1 ++ l2) y.
Proof.
  intros S. rewrite !eat_app, eat_cons. cbn [fst snd]. destruct (eqb x y) eqn:E; [|reflexivity].
  apply eqb_eq in E. subst y. apply sorted_app in S. destruct S as (_ & _ & F).
  rewrite eat_below; [reflexivity|]. intros n Hn. apply (F n (x, v) Hn). left. reflexivity.
Qed.
Lemma eat_gone (l1 l2 : elems) x v : sorted (l1 ++ (x, v) :: l2) -> at_ (l1 ++ l2) x = None.
Proof.
  intros S. apply sorted_app in S. destruct S as (_ & S & F). apply sorted_cons in S. destruct S as [_ G].
  rewrite eat_app, eat_below; [|intros n Hn; apply (F n (x, v) Hn); left; reflexivity].
  apply eat_above. intros n Hn. apply (G n Hn).
Qed.
Lemma sorted_mid_drop (l1 l2 : elems) n : sorted (l1 ++ n :: l2) -> sorted (l1 ++ l2).
Proof.
  rewrite !sorted_app, sorted_cons. intros (S1 & (S2 & _) & F). repeat split; auto.
  intros a b Ha Hb. apply F; [exact Ha|right; exact Hb].
Qed.
Lemma sorted_mid_val (l1 l2 : elems) x v w : sorted (l1 ++ (x, v) :: l2) -> sorted (l1 ++ (x, w) :: l2).
Proof.
  rewrite !sorted_app, !sorted_cons. intros (S1 & (S2 & G) & F). repeat split; auto.
  intros a b Ha [<-|Hb]; [apply (F a (x, v) Ha); left; reflexivity|apply F; [exact Ha|right; exact Hb]].
Qed.
Lemma sorted_mid_ins (l1 l2 : elems) x v : sorted (l1 ++ l2) -> (forall n, In n l1 -> ltb (fst n) x = true) ->
  (forall n, In n l2 -> ltb x (fst n) = true) -> sorted (l1 ++ (x, v) :: l2).
Proof.
  rewrite !sorted_app, sorted_cons. intros (S1 & S2 & F) A B. repeat split; auto.
  intros a b Ha [<-|Hb]; [apply A; exact Ha|auto].
Qed.
(** two sorted sequences with the same function are the same *)
Lemma eat_ext (l l' : elems) : sorted l -> sorted l' -> (forall x, at_ l x = at_ l' x) -> l = l'.
Proof.
  revert l'. induction l as [|n l IH]; intros [|n' l'] S S' H.
  - reflexivity.
  - specialize (H (fst n')). rewrite eat_cons, eqb_refl in H. discriminate.
  - specialize (H (fst n)). rewrite eat_cons, eqb_refl in H. discriminate.
  - assert (E : fst n = fst n').
    { pose proof (H (fst n)) as H1. pose proof (H (fst n')) as H2. rewrite !eat_cons, !eqb_refl in *.
      apply sorted_cons in S. apply sorted_cons in S'.
      destruct (el_tot (fst n) (fst n')) as [E|[E|E]]; [|exact E|]; exfalso.
      - pose proof (ltb_neq _ _ E) as N. assert (N' : fst n' <> fst n) by congruence.
        apply eqb_neq in N'. rewrite N' in H1. symmetry in H1. apply eat_in in H1.
        apply (proj2 S') in H1. cbn in H1. rewrite (el_asym _ _ E) in H1. discriminate.
      - pose proof (ltb_neq _ _ E) as N. assert (N' : fst n <> fst n') by congruence.
        apply eqb_neq in N'. rewrite N' in H2. apply eat_in in H2.
        apply (proj2 S) in H2. cbn in H2. rewrite (el_asym _ _ E) in H2. discriminate. }
    assert (n = n').
    { specialize (H (fst n)). rewrite !eat_cons, <- E, !eqb_refl in H. destruct n, n'. cbn in *. congruence. }
    subst n'. f_equal. apply sorted_cons in S. apply sorted_cons in S'. apply IH; [tauto|tauto|].
    intros x. specialize (H x). rewrite !eat_cons in H. destruct (eqb (fst n) x) eqn:F; [|exact H].
    apply eqb_eq in F. subst x. rewrite !eat_above; [reflexivity|apply S'|apply S].
Qed.
Lemma sorted_nodup (l : elems) : sorted l -> NoDup (map fst l).
Proof.
  induction l as [|n l IH]; intros S; cbn [map]; constructor; apply sorted_cons in S.
  - intros H. apply in_map_iff in H. destruct H as (m & E & Hm). apply (proj2 S) in Hm. rewrite E, el_irr in Hm. discriminate.
  - apply IH. tauto.
Qed.

(* ---------------------------------------------------------------- lookups *)
Lemma lower_split (l : elems) x : sorted l -> exists l1 l2, l = l1 ++ l2 /\ length l1 = e_lower X l x /\
  (forall n, In n l1 -> ltb (fst n) x = true) /\ (forall n, In n l2 -> ltb (fst n) x = false).
Proof.
  induction l as [|n l IH]; intros S.
  - exists [], []. repeat split; cbn; tauto.
  - apply sorted_cons in S. destruct S as [S F]. cbn [e_lower]. destruct (ltb (fst n) x) eqn:E.
    + destruct (IH S) as (l1 & l2 & -> & L & A & B). exists (n :: l1), l2. repeat split; auto.
      * cbn. f_equal. exact L.
      * intros m [<-|Hm]; auto.
    + exists [], (n :: l). repeat split; auto; try (intros m []; fail).
      intros m [<-|Hm]; [exact E|]. destruct (ltb (fst m) x) eqn:G; [|reflexivity].
      rewrite (el_tr _ _ _ (F _ Hm) G) in E. discriminate.
Qed.
Lemma upper_split (l : elems) x : sorted l -> exists l1 l2, l = l1 ++ l2 /\ length l1 = e_upper X l x /\
  (forall n, In n l1 -> ltb x (fst n) = false) /\ (forall n, In n l2 -> ltb x (fst n) = true).
Proof.
  induction l as [|n l IH]; intros S.
  - exists [], []. repeat split; cbn; tauto.
  - apply sorted_cons in S. destruct S as [S F]. cbn [e_upper]. destruct (ltb x (fst n)) eqn:E.
    + exists [], (n :: l). repeat split; auto; try (intros m []; fail).
      intros m [<-|Hm]; [exact E|]. eapply el_tr; eauto.
    + destruct (IH S) as (l1 & l2 & -> & L & A & B). exists (n :: l1), l2. repeat split; auto.
      * cbn. f_equal. exact L.
      * intros m [<-|Hm]; auto.
Qed.
Lemma nth_app_mid (l1 l2 : elems) n : nth_error (l1 ++ n :: l2) (length l1) = Some n.
Proof. rewrite nth_error_app2, Nat.sub_diag by lia. reflexivity. Qed.
Lemma firstn_mid (l1 l2 : elems) : firstn (length l1) (l1 ++ l2) = l1.
Proof. rewrite firstn_app, Nat.sub_diag, firstn_all, firstn_O, app_nil_r. reflexivity. Qed.
Lemma skipn_mid (l1 l2 : elems) : skipn (length l1) (l1 ++ l2) = l2.
Proof. rewrite skipn_app, Nat.sub_diag, skipn_all. reflexivity. Qed.
Lemma skipn_mid_S (l1 l2 : elems) n : skipn (S (length l1)) (l1 ++ n :: l2) = l2.
Proof. replace (l1 ++ n :: l2) with ((l1 ++ [n]) ++ l2) by (rewrite <- app_assoc; reflexivity).
  replace (S (length l1)) with (length (l1 ++ [n])) by (rewrite app_length; cbn; lia). apply skipn_mid. Qed.

(** where x is, or where it belongs *)
Lemma lower_cases (l : elems) x : sorted l ->
  (exists l1 v l2, l = l1 ++ (x, v) :: l2 /\ e_lower X l x = length l1) \/
  (exists l1 l2, l = l1 ++ l2 /\ e_lower X l x = length l1 /\
     (forall n, In n l1 -> ltb (fst n) x = true) /\ (forall n, In n l2 -> ltb x (fst n) = true)).
Proof.
  intros S. destruct (lower_split l x S) as (l1 & l2 & -> & L & A & B). destruct l2 as [|n l2].
  - right. exists l1, []. repeat split; auto; intros n [].
  - pose proof (B n (or_introl eq_refl)) as E. destruct (nlt_le _ _ E) as [F|F].
    + right. exists l1, (n :: l2). repeat split; auto. apply sorted_app in S. destruct S as (_ & S & _). apply sorted_cons in S.
      intros m [<-|Hm]; [exact F|]. exact (el_tr _ _ _ F (proj2 S m Hm)).
    + left. exists l1, (snd n), l2. subst x. split; [destruct n; reflexivity|auto].
Qed.
Lemma find_cases (l : elems) x : sorted l ->
  (exists l1 v l2, l = l1 ++ (x, v) :: l2 /\ e_find X l x = Some (length l1) /\ at_ l x = Some v) \/
  (e_find X l x = None /\ at_ l x = None).
Proof.
  intros S. destruct (lower_cases l x S) as [(l1 & v & l2 & -> & L)|(l1 & l2 & -> & L & A & B)]; unfold e_find; rewrite L.
  - left. exists l1, v, l2. rewrite nth_app_mid. cbn [fst]. rewrite el_irr. repeat split.
    rewrite eat_mid, eqb_refl by exact S. reflexivity.
  - right. split.
    + destruct l2 as [|n l2]; [rewrite app_nil_r; rewrite (proj2 (nth_error_None l1 (length l1))) by lia; reflexivity|].
      rewrite nth_app_mid. rewrite (B n); [reflexivity|left; reflexivity].
    + rewrite eat_app, eat_below by exact A. apply eat_above. exact B.
Qed.
Lemma insert_cases (l : elems) x v : sorted l ->
  (exists l1 w l2, l = l1 ++ (x, w) :: l2 /\ e_insert X l x v = (l, length l1, false) /\ at_ l x = Some w) \/
  (exists l1 l2, l = l1 ++ l2 /\ e_insert X l x v = (l1 ++ (x, v) :: l2, length l1, true) /\ at_ l x = None /\
     sorted (l1 ++ (x, v) :: l2)).
Proof.
  intros S. destruct (lower_cases l x S) as [(l1 & w & l2 & -> & L)|(l1 & l2 & -> & L & A & B)]; unfold e_insert; rewrite L.
  - left. exists l1, w, l2. rewrite nth_app_mid. cbn [fst]. rewrite el_irr. repeat split.
    rewrite eat_mid, eqb_refl by exact S. reflexivity.
  - right. exists l1, l2. split; [reflexivity|]. split; [|split].
    + destruct l2 as [|n l2]; [rewrite app_nil_r; rewrite (proj2 (nth_error_None l1 (length l1))) by lia; reflexivity|].
      rewrite nth_app_mid, (B n) by (left; reflexivity). rewrite firstn_mid, skipn_mid. reflexivity.
    + rewrite eat_app, eat_below by exact A. apply eat_above. exact B.
    + apply sorted_mid_ins; auto.
Qed.
Lemma value_mid (l1 l2 : elems) x v : e_value X (l1 ++ (x, v) :: l2) (length l1) = Ok v.
Proof. unfold e_value. rewrite nth_app_mid. reflexivity. Qed.
Lemma assign_mid (l1 l2 : elems) x v w : e_assign X (l1 ++ (x, v) :: l2) (length l1) w = Ok (l1 ++ (x, w) :: l2).
Proof. unfold e_assign. rewrite nth_app_mid, firstn_mid, skipn_mid_S. reflexivity. Qed.
Lemma erase_mid (l1 l2 : elems) n : e_erase_at X (l1 ++ n :: l2) (length l1) = Ok (l1 ++ l2).
Proof. unfold e_erase_at. rewrite nth_app_mid, firstn_mid, skipn_mid_S. reflexivity. Qed.

(** m' is m with the association of x replaced by o *)
Definition upd1 (m m' : elems) (x : K) (o : option V) : Prop :=
  sorted m' /\ at_ m' x = o /\ forall y, y <> x -> at_ m' y = at_ m y.
Lemma upd1_changed m m' x g : upd1 m m' x (g (at_ m x)) -> echanged X m m' (eq x) g.
Proof. intros (_ & A & B) y. split; [intros <-; exact A|intros N; apply B; congruence]. Qed.
Lemma upd1_same (m : elems) x o : sorted m -> at_ m x = o -> upd1 m m x o.
Proof. intros S A. split; [exact S|]. split; [exact A|reflexivity]. Qed.
Lemma upd1_put (l1 l2 : elems) x v w : sorted (l1 ++ (x, v) :: l2) -> upd1 (l1 ++ (x, v) :: l2) (l1 ++ (x, w) :: l2) x (Some w).
Proof.
  intros S. pose proof (sorted_mid_val _ _ _ _ w S) as S'. split; [exact S'|]. split; [rewrite eat_mid, eqb_refl by exact S'; reflexivity|].
  intros y N. rewrite !eat_mid by assumption. assert (E : eqb x y = false) by (apply eqb_neq; congruence). rewrite E. reflexivity.
Qed.
Lemma upd1_drop (l1 l2 : elems) x v : sorted (l1 ++ (x, v) :: l2) -> upd1 (l1 ++ (x, v) :: l2) (l1 ++ l2) x None.
Proof.
  intros S. split; [exact (sorted_mid_drop _ _ _ S)|]. split; [exact (eat_gone _ _ _ _ S)|].
  intros y N. rewrite eat_mid by assumption. assert (E : eqb x y = false) by (apply eqb_neq; congruence). rewrite E. reflexivity.
Qed.
Lemma upd1_ins (l1 l2 : elems) x v : sorted (l1 ++ (x, v) :: l2) -> upd1 (l1 ++ l2) (l1 ++ (x, v) :: l2) x (Some v).
Proof.
  intros S. split; [exact S|]. split; [rewrite eat_mid, eqb_refl by exact S; reflexivity|].
  intros y N. rewrite eat_mid by exact S. assert (E : eqb x y = false) by (apply eqb_neq; congruence). rewrite E. reflexivity.
Qed.
Lemma upd1_upd1 (m m1 m2 : elems) x o1 o2 : upd1 m m1 x o1 -> upd1 m1 m2 x o2 -> upd1 m m2 x o2.
Proof. intros (_ & _ & A) (S & B & C). split; [exact S|]. split; [exact B|]. intros y N. rewrite C, A by exact N. reflexivity. Qed.
Lemma upd1_sorted m m' x o : upd1 m m' x o -> sorted m'. Proof. intros H. apply H. Qed.

Lemma insert_upd (m : elems) x v : sorted m ->
  upd1 m (fst (fst (e_insert X m x v))) x (Some (match at_ m x with Some w => w | None => v end)) /\
  snd (e_insert X m x v) = match at_ m x with Some _ => false | None => true end.
Proof.
  intros S. destruct (insert_cases m x v S) as [(l1 & w & l2 & -> & E & A)|(l1 & l2 & -> & E & A & S')]; rewrite E, A; cbn [fst snd].
  - split; [apply upd1_same; auto|reflexivity].
  - split; [apply upd1_ins; exact S'|reflexivity].
Qed.
Lemma erase_key_upd (m : elems) x : sorted m -> exists m' c, e_erase_key X m x = Ok (m', c) /\ upd1 m m' x None /\
  c = match at_ m x with Some _ => 1%nat | None => 0%nat end.
Proof.
  intros S. unfold e_erase_key. destruct (find_cases m x S) as [(l1 & v & l2 & -> & E & A)|(E & A)]; rewrite E, A.
  - rewrite erase_mid. cbn [bind]. eexists _, _. split; [reflexivity|]. split; [apply (upd1_drop _ _ _ _ S)|reflexivity].
  - eexists _, _. split; [reflexivity|]. split; [apply upd1_same; auto|reflexivity].
Qed.
Lemma contains_key_spec (m : elems) x : sorted m -> (e_contains_key X m x = true <-> at_ m x <> None).
Proof.
  intros S. unfold e_contains_key. destruct (find_cases m x S) as [(l1 & v & l2 & -> & E & A)|(E & A)]; rewrite E, A; split; congruence.
Qed.
End Seq.
End ElemFacts.
