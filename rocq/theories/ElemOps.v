(** Element containers: the operations of std::set and icl::map. *)
From Verif Require Import ElemSpec ElemFacts.
From Coq Require Import Sorted.

Section Folds.
Context (X : dom) (HT : strict_total X).
Notation K := (D X).
Context {V W : Type}.
Notation at_ := (@eat X V).

(** an operation that changes one association, applied to a list of distinct keys *)
Lemma fold_upd (op : list (K * V) -> K * W -> res (list (K * V))) (g : W -> option V -> option V) (l : list (K * W)) :
  (forall m n, esorted X m -> In n l -> exists m', op m n = Ok m' /\ upd1 X m m' (fst n) (g (snd n) (at_ m (fst n)))) ->
  NoDup (map fst l) -> forall m, esorted X m ->
  exists m', foldM op m l = Ok m' /\ esorted X m' /\
    forall x, at_ m' x = match eat X l x with Some w => g w (at_ m x) | None => at_ m x end.
Proof.
  induction l as [|n l IH]; intros Hop ND m S; cbn [foldM].
  - exists m. split; [reflexivity|]. split; [exact S|]. intros x. reflexivity.
  - destruct (Hop m n S (or_introl eq_refl)) as (m1 & E1 & S1 & A1 & B1). rewrite E1. cbn [bind]. cbn [map] in ND. inversion ND; subst.
    destruct (IH (fun m n S I => Hop m n S (or_intror I)) H2 m1 S1) as (m2 & E2 & S2 & A2). exists m2. split; [exact E2|]. split; [exact S2|].
    intros x. rewrite A2, eat_cons. destruct (eqb (fst n) x) eqn:E.
    + apply (eqb_eq X HT) in E. subst x. rewrite (proj2 (eat_none X HT l (fst n)) H1). exact A1.
    + apply (eqb_neq X HT) in E. rewrite B1 by congruence. reflexivity.
Qed.
Lemma fold_upd_pure (op : list (K * V) -> K * W -> list (K * V)) (g : W -> option V -> option V) (l : list (K * W)) :
  (forall m n, esorted X m -> In n l -> upd1 X m (op m n) (fst n) (g (snd n) (at_ m (fst n)))) ->
  NoDup (map fst l) -> forall m, esorted X m ->
  esorted X (fold_left op l m) /\
    forall x, at_ (fold_left op l m) x = match eat X l x with Some w => g w (at_ m x) | None => at_ m x end.
Proof.
  intros Hop ND m S.
  assert (G : forall l m, foldM (fun m n => Ok (op m n)) m l = Ok (fold_left op l m)).
  { clear. induction l as [|n l IH]; intros m; cbn; [reflexivity|apply IH]. }
  destruct (fold_upd (fun m n => Ok (op m n)) g l) with (m := m) as (m' & E & H); auto.
  - intros m0 n S0 I0. eexists. split; [reflexivity|]. apply Hop; auto.
  - rewrite G in E. injection E as <-. exact H.
Qed.
End Folds.

Section Ranges.
Context (X : dom) (HT : strict_total X).
Notation K := (D X).

Lemma last_in {A} (l : list A) d : l <> [] -> In (List.last l d) l.
Proof. induction l as [|a l IH]; intros H; [congruence|]. destruct l as [|b l]; [left; reflexivity|]. right. apply IH. discriminate. Qed.
Lemma last_cons {A} (a : A) l d : List.last (a :: l) d = List.last l a.
Proof. revert a d. induction l as [|b l IH]; intros a d; [reflexivity|]. change (List.last (a :: b :: l) d) with (List.last (b :: l) d). rewrite !IH. reflexivity. Qed.
Lemma first_least {V} (n : K * V) l m : esorted X (n :: l) -> In m (n :: l) -> ltb (fst m) (fst n) = false.
Proof.
  intros S [<-|H]; [apply el_irr; exact HT|]. apply (sorted_cons X) in S. apply (el_asym X HT). apply S. exact H.
Qed.
Lemma last_greatest {V} (l : list (K * V)) d m : esorted X l -> In m l -> ltb (fst (List.last l d)) (fst m) = false.
Proof.
  revert d. induction l as [|n l IH]; intros d S H; [destruct H|]. rewrite last_cons. apply (sorted_cons X) in S. destruct S as [S F].
  destruct H as [<-|H]; [|apply IH; auto]. destruct l as [|b l]; [apply el_irr; exact HT|].
  apply (el_asym X HT). apply F. apply last_in. discriminate.
Qed.

(** common_range: no common key, or all common keys lie in a well-formed range *)
Lemma common_range_spec {V W} (x1 : list (K * V)) (x2 : list (K * W)) : esorted X x1 -> esorted X x2 ->
  match e_common_range X x1 x2 with
  | None => forall x, In x (map fst x1) -> ~ In x (map fst x2)
  | Some (lwb, upb) =>
      x1 <> [] /\ x2 <> [] /\
      exists l0 l l1, x1 = l0 ++ l ++ l1 /\ e_range X x1 lwb upb = Ok l /\ forall n, In n l0 \/ In n l1 -> ~ In (fst n) (map fst x2)
  end.
Proof.
  intros S1 S2. unfold e_common_range. destruct x1 as [|a x1]; [intros x []|]. destruct x2 as [|b x2]; [intros x _ []|].
  set (al := List.last (a :: x1) a). set (bl := List.last (b :: x2) b).
  assert (Ia : In al (a :: x1)) by (apply last_in; discriminate). assert (Ib : In bl (b :: x2)) by (apply last_in; discriminate).
  destruct (ltb (fst al) (fst b)) eqn:E1; [|destruct (ltb (fst bl) (fst a)) eqn:E2].
  - intros x H1 H2. apply in_map_iff in H1. destruct H1 as (n & <- & H1). apply in_map_iff in H2. destruct H2 as (m & E & H2).
    pose proof (last_greatest _ a _ S1 H1) as G. fold al in G. pose proof (first_least _ _ _ S2 H2) as L. rewrite E in L.
    rewrite (le_lt_lt X HT (fst n) (fst al) (fst b) G E1) in L. discriminate.
  - intros x H1 H2. apply in_map_iff in H1. destruct H1 as (n & <- & H1). apply in_map_iff in H2. destruct H2 as (m & E & H2).
    pose proof (last_greatest _ b _ S2 H2) as G. fold bl in G. pose proof (first_least _ _ _ S1 H1) as L. rewrite E in G.
    rewrite (le_lt_lt X HT (fst n) (fst bl) (fst a) G E2) in L. discriminate.
  - split; [discriminate|]. split; [discriminate|].
    destruct (lower_split X HT (a :: x1) (fst b) S1) as (p1 & p2 & Ep & Lp & Ap & Bp).
    assert (S1' : esorted X p2) by (rewrite Ep in S1; apply (sorted_app X) in S1; tauto).
    destruct (upper_split X HT p2 (fst bl) S1') as (q1 & q2 & Eq & Lq & Aq & Bq).
    exists p1, q1, q2. split; [rewrite Ep, Eq; reflexivity|].
    assert (U : e_upper X (a :: x1) (fst bl) = length p1 + length q1).
    { rewrite Ep, Lq. clear - Ap HT E2 S2 Ib. assert (Gb : ltb (fst bl) (fst b) = false) by (apply (first_least _ _ _ S2 Ib)).
      induction p1 as [|n p1 IH]; [reflexivity|]. cbn [app e_upper length Nat.add].
      destruct (ltb (fst bl) (fst n)) eqn:E.
      - pose proof (Ap n (or_introl eq_refl)) as G. rewrite (el_tr X HT _ _ _ E G) in Gb. discriminate.
      - f_equal. apply IH. intros m Hm. apply Ap. right. exact Hm. }
    split.
    + unfold e_range. rewrite U, <- Lp. replace (length p1 <=? length p1 + length q1) with true by (symmetry; apply Nat.leb_le; lia).
      replace (length p1 + length q1 - length p1) with (length q1) by lia. rewrite Ep, (skipn_mid X), Eq, (firstn_mid X). reflexivity.
    + intros n H C. apply in_map_iff in C. destruct C as (m & E & C). destruct H as [H|H].
      * pose proof (first_least _ _ _ S2 C) as L. rewrite E, (Ap _ H) in L. discriminate.
      * pose proof (last_greatest _ b _ S2 C) as G. fold bl in G. rewrite E, (Bq _ H) in G. discriminate.
Qed.
End Ranges.

Section MapOps.
Context (X : dom) (HT : strict_total X) (CC : codomain) (Hco : eq_ok CC) (p : mpar).
Notation K := (D X).
Notation V := (C CC).
Notation emap := (list (K * V)).
Notation M := (mt CC p).
Notation at_ := (@eat X V).
Notation sorted := (@esorted X V).
Notation store := (store CC p).
Notation absorbed := (absorbed CC p).
Notation upd1 := (@upd1 X V).

Lemma absorbable v : is_absorbable M v = absorbed v. Proof. reflexivity. Qed.
Lemma version_first f v : version CC f v = first_value CC f v. Proof. destruct f; reflexivity. Qed.
Lemma cc_refl (v : V) : cc_eq v v = true. Proof. apply Hco. reflexivity. Qed.

Lemma combine_at f (l1 l2 : emap) x w (v : V) : sorted (l1 ++ (x, w) :: l2) ->
  exists m', em_combine_at X M f (l1 ++ (x, w) :: l2) (length l1) v = Ok m' /\
    upd1 (l1 ++ (x, w) :: l2) m' x (store (combine CC f w v)).
Proof.
  intros S. unfold em_combine_at. rewrite value_mid. cbn [bind]. rewrite assign_mid. cbn [bind]. rewrite value_mid. cbn [bind].
  rewrite absorbable. unfold MapSpec.store. cbn [mt_co mt].
  pose proof (upd1_put X HT _ _ _ _ (combine CC f w v) S) as U. destruct (absorbed (combine CC f w v)).
  - rewrite erase_mid. eexists. split; [reflexivity|]. eapply upd1_upd1; [exact U|]. apply (upd1_drop X HT). apply U.
  - eexists. split; [reflexivity|exact U].
Qed.
Lemma add_upd f m x (v : V) : sorted m -> exists m', em_add_ X M f m x v = Ok m' /\ upd1 m m' x (plus_val CC p f v (at_ m x)).
Proof.
  intros S. unfold em_add_, plus_val. rewrite absorbable. destruct (absorbed v).
  - eexists. split; [reflexivity|]. apply upd1_same; auto.
  - cbn [mt_co mt]. rewrite version_first.
    destruct (insert_cases X HT m x (first_value CC f v) S) as [(l1 & w & l2 & -> & E & A)|(l1 & l2 & -> & E & A & S')]; rewrite E, A.
    + apply combine_at. exact S.
    + eexists. split; [reflexivity|]. apply (upd1_ins X HT). exact S'.
Qed.
(** the value of a new key after a hinted addition *)
Definition hint_val (f : functor) (v : V) (o : option V) : option V :=
  if absorbed v then o else store (combine CC f (match o with Some w => w | None => cc_zero end) v).
Lemma add_hint_upd f m x (v : V) : sorted m -> exists m', em_add_hint_ X M f m x v = Ok m' /\ upd1 m m' x (hint_val f v (at_ m x)).
Proof.
  intros S. unfold em_add_hint_, hint_val. rewrite absorbable. destruct (absorbed v).
  - eexists. split; [reflexivity|]. apply upd1_same; auto.
  - cbn [mt_co mt]. destruct (insert_cases X HT m x cc_zero S) as [(l1 & w & l2 & -> & E & A)|(l1 & l2 & -> & E & A & S')]; rewrite E, A.
    + apply combine_at. exact S.
    + destruct (combine_at f l1 l2 x cc_zero v S') as (m' & E' & U). exists m'. split; [exact E'|].
      eapply upd1_upd1; [|exact U]. apply (upd1_ins X HT). exact S'.
Qed.
Lemma hint_plus f v o : neutral_ok CC f -> first_ok CC f -> hint_val f v o = plus_val CC p f v o.
Proof.
  intros N F. unfold hint_val, plus_val. destruct (absorbed v) eqn:E; [reflexivity|]. destruct o as [w|]; [reflexivity|].
  rewrite N. unfold MapSpec.store, MapSpec.absorbed in *. destruct (mp_absorbs p); [|reflexivity]. cbn in *.
  destruct (cc_eq (first_value CC f v) cc_zero) eqn:Z; [|reflexivity]. apply Hco in Z. apply F in Z. subst v. rewrite cc_refl in E. discriminate.
Qed.
Lemma subtract_upd_ f m x (v : V) : sorted m -> exists m', em_subtract_ X M f m x v = Ok m' /\
  upd1 m m' x (match at_ m x with Some w => store (combine CC f w v) | None => None end).
Proof.
  intros S. unfold em_subtract_. cbn [mt_co mt]. destruct (find_cases X HT m x S) as [(l1 & w & l2 & -> & E & A)|(E & A)]; rewrite E, A.
  - apply combine_at. exact S.
  - eexists. split; [reflexivity|]. apply upd1_same; auto.
Qed.
Lemma subtract_upd m x (v : V) : sorted m -> exists m', em_subtract X M m x v = Ok m' /\ upd1 m m' x (esub_val CC p v (at_ m x)).
Proof.
  intros S. unfold em_subtract, esub_val, is_total_invertible, inverse_codomain_combine, codomain_combine. cbn [mt_co mt mt_total mt_combine].
  destruct (mp_total p && cc_invertible CC); [apply add_upd|apply subtract_upd_]; exact S.
Qed.
Lemma minsert_upd m x (v : V) : sorted m ->
  upd1 m (fst (fst (em_insert X M m x v))) x (ins_val CC p v (at_ m x)) /\
  (snd (em_insert X M m x v) = true <-> absorbed v = true \/ at_ m x = None) /\
  (snd (em_insert X M m x v) = false -> exists l1 w l2, m = l1 ++ (x, w) :: l2 /\ em_insert X M m x v = (m, Some (length l1), false) /\ at_ m x = Some w).
Proof.
  intros S. unfold em_insert, ins_val, MapSpec.store. cbn [mt_co mt]. rewrite absorbable. destruct (absorbed v) eqn:Ab.
  - cbn [fst snd]. split; [apply upd1_same; auto; destruct (at_ m x); reflexivity|]. split; [tauto|discriminate].
  - destruct (insert_cases X HT m x v S) as [(l1 & w & l2 & -> & E & A)|(l1 & l2 & -> & E & A & S')]; rewrite E, A; cbn [fst snd].
    + split; [apply upd1_same; auto|]. split; [split; [discriminate|intros [|]; discriminate]|]. intros _. exists l1, w, l2. auto.
    + split; [apply (upd1_ins X HT); exact S'|]. split; [tauto|discriminate].
Qed.
Lemma erase_pair_upd m x (v : V) : sorted m -> exists m' c, em_erase_pair X M m x v = Ok (m', c) /\
  upd1 m m' x (if absorbed v then at_ m x else erase_val CC v (at_ m x)) /\
  c = (if absorbed v then 0 else match at_ m x with Some w => if cc_eq w v then 1 else 0 | None => 0 end)%nat.
Proof.
  intros S. unfold em_erase_pair, erase_val. cbn [mt_co mt]. rewrite absorbable. destruct (absorbed v).
  { eexists _, _. split; [reflexivity|]. split; [apply upd1_same; auto|reflexivity]. }
  destruct (find_cases X HT m x S) as [(l1 & w & l2 & -> & E & A)|(E & A)]; rewrite E, A.
  - rewrite value_mid. cbn [bind mt_co mt]. assert (Sy : cc_eq v w = cc_eq w v).
    { destruct (cc_eq v w) eqn:F; destruct (cc_eq w v) eqn:G; auto; [apply Hco in F; subst; rewrite cc_refl in G; discriminate|apply Hco in G; subst; rewrite cc_refl in F; discriminate]. }
    rewrite Sy. destruct (cc_eq w v).
    + rewrite erase_mid. cbn [bind]. eexists _, _. split; [reflexivity|]. split; [apply (upd1_drop X HT _ _ _ w S)|reflexivity].
    + eexists _, _. split; [reflexivity|]. split; [apply upd1_same; auto|reflexivity].
  - eexists _, _. split; [reflexivity|]. split; [apply upd1_same; auto|reflexivity].
Qed.
Lemma lookup_spec m x : sorted m -> em_lookup X M m x = Ok (match at_ m x with Some v => v | None => cc_zero end).
Proof.
  intros S. unfold em_lookup. cbn [mt_co mt]. destruct (find_cases X HT m x S) as [(l1 & w & l2 & -> & E & A)|(E & A)]; rewrite E, A; [apply value_mid|reflexivity].
Qed.
Lemma contains_pair_spec m x (v : V) : sorted m -> exists b, em_contains_pair X M m x v = Ok b /\ (b = true <-> at_ m x = Some v).
Proof.
  intros S. unfold em_contains_pair. cbn [mt_co mt]. destruct (find_cases X HT m x S) as [(l1 & w & l2 & -> & E & A)|(E & A)]; rewrite E, A.
  - rewrite value_mid. cbn [bind]. eexists. split; [reflexivity|]. cbn [mt_co mt]. rewrite (Hco w v). split; congruence.
  - eexists. split; [reflexivity|]. split; discriminate.
Qed.
(** addition of a pair to the section: what add_intersection(pair) does for partial maps *)
Lemma isec_pair_upd s m x (v : V) : mp_total p = false -> sorted s -> sorted m ->
  exists s', em_add_intersection_pair X M s m x v = Ok s' /\
    upd1 s s' x (match at_ m x with Some w => plus_val CC p (section CC p) v (add_val CC p w (at_ s x)) | None => at_ s x end).
Proof.
  intros Hp Ss S. unfold em_add_intersection_pair. cbn [mt_total mt_co mt]. rewrite Hp.
  destruct (find_cases X HT m x S) as [(l1 & w & l2 & -> & E & A)|(E & A)]; rewrite E, A.
  - rewrite value_mid. cbn [bind]. destruct (add_upd (codomain_combine M) s x w Ss) as (s1 & E1 & U1). rewrite E1. cbn [bind].
    destruct (add_upd (codomain_intersect M) s1 x v (proj1 U1)) as (s2 & E2 & U2). exists s2. split; [exact E2|].
    eapply upd1_upd1; [exact U1|]. destruct U1 as (_ & A1 & _). rewrite A1 in U2. exact U2.
  - eexists. split; [reflexivity|]. apply upd1_same; auto.
Qed.
Lemma isec_key_upd s m x : sorted s -> sorted m -> exists s', em_add_intersection_key X M s m x = Ok s' /\
  upd1 s s' x (match at_ m x with Some w => add_val CC p w (at_ s x) | None => at_ s x end).
Proof.
  intros Ss S. unfold em_add_intersection_key. cbn [mt_co mt]. destruct (find_cases X HT m x S) as [(l1 & w & l2 & -> & E & A)|(E & A)]; rewrite E, A.
  - rewrite value_mid. cbn [bind]. apply add_upd. exact Ss.
  - eexists. split; [reflexivity|]. apply upd1_same; auto.
Qed.
Lemma flip_upd m x (v : V) : mp_total p = false -> sorted m -> exists m', em_flip X M m x v = Ok m' /\ upd1 m m' x (eflip_val CC p v (at_ m x)).
Proof.
  intros Hp S. unfold em_flip. cbn [mt_total mt]. rewrite Hp.
  destruct (minsert_upd m x v S) as (U & B & F). destruct (em_insert X M m x v) as ((m1, it), b) eqn:E. cbn [fst snd] in *. destruct b.
  - eexists. split; [reflexivity|]. destruct B as [B _]. specialize (B eq_refl). unfold eflip_val, ins_val in *.
    destruct (at_ m x) as [w|] eqn:A; [|exact U]. destruct B as [->|?]; [exact U|discriminate].
  - destruct (F eq_refl) as (l1 & w & l2 & -> & E' & A). injection E' as -> ->. rewrite A.
    assert (Ab : absorbed v = false). { destruct (absorbed v) eqn:Ab; [|reflexivity]. destruct B as [_ B]. rewrite B in *; auto. }
    unfold em_codomain_subtract, eflip_val, MapSpec.store. cbn [mt_co mt mt_absorbs]. rewrite Ab.
    assert (Sx : inverse_codomain_intersect M = inverse CC (section CC p)) by reflexivity. rewrite Sx.
    destruct (cc_set_sem CC).
    + rewrite value_mid. cbn [bind]. rewrite assign_mid. cbn [bind].
      pose proof (upd1_put X HT _ _ _ _ (combine CC (inverse CC (section CC p)) w v) S) as U'.
      unfold MapSpec.absorbed. destruct (mp_absorbs p); cbn [andb].
      * rewrite value_mid. cbn [bind]. destruct (cc_eq _ cc_zero).
        -- rewrite erase_mid. eexists. split; [reflexivity|]. eapply upd1_upd1; [exact U'|]. apply (upd1_drop X HT). apply U'.
        -- eexists. split; [reflexivity|exact U'].
      * eexists. split; [reflexivity|exact U'].
    + unfold MapSpec.absorbed. rewrite cc_refl, andb_true_r. destruct (mp_absorbs p).
      * rewrite erase_mid. eexists. split; [reflexivity|]. apply (upd1_drop X HT _ _ _ w S).
      * rewrite assign_mid. eexists. split; [reflexivity|]. apply (upd1_put X HT _ _ _ w _ S).
Qed.

(* ------------------------------------------------------------------ whole maps *)
Lemma add_map_upd m o : sorted m -> NoDup (map fst o) -> exists m', em_add_map X M m o = Ok m' /\ sorted m' /\
  ecombined X m o m' (hint_val (mp_combine p)).
Proof.
  intros S N. apply (fold_upd X HT (fun m n => em_add_hint X M m (fst n) (snd n)) (hint_val (mp_combine p))); auto.
  intros m0 n S0 _. apply add_hint_upd. exact S0.
Qed.
Lemma insert_map_upd m o : sorted m -> NoDup (map fst o) -> sorted (em_insert_map X M m o) /\ ecombined X m o (em_insert_map X M m o) (ins_val CC p).
Proof.
  intros S N. apply (fold_upd_pure X HT (fun m n => fst (fst (em_insert X M m (fst n) (snd n)))) (ins_val CC p)); auto.
  intros m0 n S0 _. apply minsert_upd. exact S0.
Qed.
Lemma subtract_map_upd m o : sorted m -> NoDup (map fst o) -> exists m', em_subtract_map X M m o = Ok m' /\ sorted m' /\ ecombined X m o m' (esub_val CC p).
Proof.
  intros S N. apply (fold_upd X HT (fun m n => em_subtract X M m (fst n) (snd n)) (esub_val CC p)); auto.
  intros m0 n S0 _. apply subtract_upd. exact S0.
Qed.
Lemma erase_map_upd m o : sorted m -> NoDup (map fst o) -> exists m', em_erase_map X M m o = Ok m' /\ sorted m' /\
  ecombined X m o m' (fun v w => if absorbed v then w else erase_val CC v w).
Proof.
  intros S N. apply (fold_upd X HT (fun m n => ' (m, _) <- em_erase_pair X M m (fst n) (snd n) ;; Ok m) (fun v w => if absorbed v then w else erase_val CC v w)); auto.
  intros m0 n S0 _. destruct (erase_pair_upd m0 (fst n) (snd n) S0) as (m' & c & E & U & _). rewrite E. cbn [bind]. eexists. split; [reflexivity|exact U].
Qed.
Lemma flip_map_upd m o : mp_total p = false -> sorted m -> NoDup (map fst o) -> exists m', em_flip_map X M m o = Ok m' /\ sorted m' /\
  ecombined X m o m' (eflip_val CC p).
Proof.
  intros Hp S N. unfold em_flip_map. cbn [mt_total mt]. rewrite Hp.
  apply (fold_upd X HT (fun m n => em_flip X M m (fst n) (snd n)) (eflip_val CC p)); auto.
  intros m0 n S0 _. apply flip_upd; auto.
Qed.
Lemma isec_map_upd s m o : mp_total p = false -> sorted s -> sorted m -> NoDup (map fst o) ->
  exists s', em_add_intersection_map X M s m o = Ok s' /\ sorted s' /\
    forall x, at_ s' x = match at_ o x with
      | Some v => match at_ m x with Some w => plus_val CC p (section CC p) v (add_val CC p w (at_ s x)) | None => at_ s x end
      | None => at_ s x end.
Proof.
  intros Hp Ss S N.
  (* the addend depends on m, which does not change: fold with the pair (x, v) as operand *)
  assert (G : forall (l s : emap), NoDup (map fst l) -> sorted s -> exists s', em_add_intersection_map X M s m l = Ok s' /\ sorted s' /\
    forall x, at_ s' x = match at_ l x with
      | Some v => match at_ m x with Some w => plus_val CC p (section CC p) v (add_val CC p w (at_ s x)) | None => at_ s x end
      | None => at_ s x end).
  { clear s o Ss N. induction l as [|n l IH]; intros s N Ss; unfold em_add_intersection_map; cbn [foldM].
    - eexists. split; [reflexivity|]. split; [exact Ss|]. reflexivity.
    - destruct (isec_pair_upd s m (fst n) (snd n) Hp Ss S) as (s1 & E1 & S1 & A1 & B1). cbn [mt_co mt] in *. rewrite E1. cbn [bind]. cbn [map] in N. inversion N; subst.
      destruct (IH s1 H2 S1) as (s2 & E2 & S2 & A2). exists s2. split; [exact E2|]. split; [exact S2|].
      intros x. rewrite A2, eat_cons. destruct (eqb (fst n) x) eqn:E.
      + apply (eqb_eq X HT) in E. subst x. rewrite (proj2 (eat_none X HT l (fst n)) H1). exact A1.
      + apply (eqb_neq X HT) in E. rewrite B1 by congruence. reflexivity. }
  apply G; auto.
Qed.
Lemma unit_at (o : list (K * unit)) x : eat X o x = if in_dec (el_dec X HT) x (map fst o) then Some tt else None.
Proof.
  destruct (in_dec _ _ _) as [H|H]; [|apply (eat_none X HT); exact H]. apply (eat_some_key X HT) in H. destruct (eat X o x) as [[]|]; congruence.
Qed.
Lemma erase_keys_upd m (o : list (K * unit)) : sorted m -> NoDup (map fst o) ->
  exists m', foldM (fun m n => ' (m, _) <- e_erase_key X m (fst n) ;; Ok m) m o = Ok m' /\ sorted m' /\ echanged X m m' (has_elem X o) (fun _ => None).
Proof.
  intros S N.
  destruct (fold_upd X HT (fun m (n : K * unit) => ' (m, _) <- e_erase_key X m (fst n) ;; Ok m) (fun _ (_ : option V) => None) o) with (m := m) as (m' & E & S' & A); auto.
  - intros m0 n S0 _. destruct (erase_key_upd X HT m0 (fst n) S0) as (m1 & c & E & U & _). rewrite E. cbn [bind]. eauto.
  - exists m'. split; [exact E|]. split; [exact S'|]. intros x. rewrite A, unit_at. unfold has_elem. destruct (in_dec _ _ _); tauto.
Qed.
Lemma erase_set_upd m o : sorted m -> esorted X o -> exists m', em_erase_set X M m o = Ok m' /\ sorted m' /\ echanged X m m' (has_elem X o) (fun _ => None).
Proof. intros S N. apply erase_keys_upd; [exact S|apply (sorted_nodup X HT); exact N]. Qed.
Lemma subtract_set_upd m o : sorted m -> esorted X o -> exists m', em_subtract_set X M m o = Ok m' /\ sorted m' /\ echanged X m m' (has_elem X o) (fun _ => None).
Proof.
  intros S So. unfold em_subtract_set. cbn [mt_co mt]. pose proof (common_range_spec X HT o m So S) as R. destruct (e_common_range X o m) as [(lwb, upb)|].
  - destruct R as (_ & _ & l0 & l & l1 & Eo & Er & D). rewrite Er. cbn [bind].
    assert (Sl : esorted X l). { rewrite Eo in So. apply (sorted_app X) in So. destruct So as (_ & So & _). apply (sorted_app X) in So. tauto. }
    destruct (erase_keys_upd m l S (sorted_nodup X HT _ Sl)) as (m' & E & S' & A). exists m'. split; [exact E|]. split; [exact S'|].
    intros x. destruct (A x) as [A1 A2]. unfold has_elem in *. split.
    + intros H. rewrite Eo, !map_app, !in_app_iff in H. destruct (in_dec (el_dec X HT) x (map fst l)) as [I|I]; [auto|].
      rewrite A2 by exact I. apply (eat_none X HT). destruct H as [H|[H|H]]; [|tauto|]; apply in_map_iff in H; destruct H as (n & <- & H); apply D; auto.
    + intros H. apply A2. intros I. apply H. rewrite Eo, !map_app, !in_app_iff. auto.
  - exists m. split; [reflexivity|]. split; [exact S|]. intros x. split; [|reflexivity]. intros H. apply (eat_none X HT). apply R. exact H.
Qed.
Lemma isec_set_at s m o : sorted s -> sorted m -> esorted X o -> exists s', em_add_intersection_set X M s m o = Ok s' /\ sorted s' /\
  forall x, at_ s' x = match eat X o x with
    | Some _ => match at_ m x with Some w => add_val CC p w (at_ s x) | None => at_ s x end
    | None => at_ s x end.
Proof.
  intros Ss S So. unfold em_add_intersection_set. cbn [mt_co mt].
  assert (G : forall l (s : emap), NoDup (map fst l) -> sorted s -> exists s', foldM (fun sec (n : K * unit) => em_add_intersection_key X M sec m (fst n)) s l = Ok s' /\ sorted s' /\
    forall x, at_ s' x = match eat X l x with
      | Some _ => match at_ m x with Some w => add_val CC p w (at_ s x) | None => at_ s x end
      | None => at_ s x end).
  { clear s o Ss So. induction l as [|n l IH]; intros s N Ss; cbn [foldM].
    - eexists. split; [reflexivity|]. split; [exact Ss|]. reflexivity.
    - destruct (isec_key_upd s m (fst n) Ss S) as (s1 & E1 & S1 & A1 & B1). rewrite E1. cbn [bind]. cbn [map] in N. inversion N; subst.
      destruct (IH s1 H2 S1) as (s2 & E2 & S2 & A2). exists s2. split; [exact E2|]. split; [exact S2|].
      intros x. rewrite A2, eat_cons. destruct (eqb (fst n) x) eqn:E.
      + apply (eqb_eq X HT) in E. subst x. rewrite (proj2 (eat_none X HT l (fst n)) H1). exact A1.
      + apply (eqb_neq X HT) in E. rewrite B1 by congruence. reflexivity. }
  pose proof (common_range_spec X HT o m So S) as R. destruct (e_common_range X o m) as [(lwb, upb)|].
  - destruct R as (_ & _ & l0 & l & l1 & Eo & Er & D). rewrite Er. cbn [bind].
    assert (Sl : esorted X l). { rewrite Eo in So. apply (sorted_app X) in So. destruct So as (_ & So & _). apply (sorted_app X) in So. tauto. }
    destruct (G l s (sorted_nodup X HT _ Sl) Ss) as (s' & E & S' & A). exists s'. split; [exact E|]. split; [exact S'|].
    intros x. rewrite A. rewrite Eo, !(eat_app X). destruct (eat X l x) eqn:El.
    + destruct (eat X l0 x); [reflexivity|]. reflexivity.
    + assert (Dx : forall n u, In n [l0; l1] -> eat X n x = Some u -> at_ m x = None).
      { intros n u Hn Hu. apply (eat_in X HT) in Hu. apply (eat_none X HT). apply (D (x, u)). destruct Hn as [<-|[<-|[]]]; auto. }
      destruct (eat X l0 x) eqn:E0; [rewrite (Dx l0 u); cbn; auto|]. destruct (eat X l1 x) eqn:E1; [rewrite (Dx l1 u); cbn; auto|]. reflexivity.
  - exists s. split; [reflexivity|]. split; [exact Ss|]. intros x. destruct (eat X o x) eqn:E; [|reflexivity].
    assert (H : at_ m x = None). { apply (eat_none X HT). apply R. apply (eat_some_key X HT). congruence. }
    rewrite H. reflexivity.
Qed.
Lemma reset_upd m : sorted m -> sorted (em_reset X M m) /\ forall x, at_ (em_reset X M m) x = match at_ m x with Some _ => Some cc_zero | None => None end.
Proof.
  intros S. unfold em_reset. cbn [mt_co mt] in *. split.
  - clear - S. induction m as [|n m IH]; cbn [map]; [constructor|]. apply (sorted_cons X) in S. apply (sorted_cons X). split; [apply IH; tauto|].
    intros a Ha. apply in_map_iff in Ha. destruct Ha as (b & <- & Hb). cbn. apply S. exact Hb.
  - intros x. induction m as [|n m IH]; [reflexivity|]. cbn [map]. rewrite !eat_cons. cbn [fst snd]. destruct (eqb (fst n) x); [reflexivity|].
    apply IH. apply (sorted_cons X) in S. tauto.
Qed.
End MapOps.
