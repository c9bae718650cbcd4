(** Interval containers agree with element containers. *)
From Verif Require Import ElemSpec ElemFacts ElemOps ElemQuery ElemThms ElemThms2.
From Verif Require Import SetProps SetThms MapReach MapThms MapThms2 MapThms3 MapThms4.
From Coq Require Import Sorted.

Section Common.
Context (X : dom) (k : kind) (HX : dom_ok X k).
Notation K := (D X).
Notation mem := (mem X k).

Lemma total_order : strict_total X. Proof. apply HX. Qed.
Notation HT := total_order.

(** an operation that updates one key, applied to a list of keys *)
Lemma each_upd {V} (op : list (K * V) -> K -> res (list (K * V))) (g : K -> option V -> option V) e :
  (forall m x, esorted X m -> exists m', op m x = Ok m' /\ upd1 X m m' x (g x (eat X m x))) -> NoDup e ->
  forall m, esorted X m -> exists m', each X op m e = Ok m' /\ esorted X m' /\
    forall x, (In x e -> eat X m' x = g x (eat X m x)) /\ (~ In x e -> eat X m' x = eat X m x).
Proof.
  intros H N. induction e as [|y e IH]; intros m S; unfold each; cbn [foldM].
  - exists m. split; [reflexivity|]. split; [exact S|]. intros x. split; [intros []|reflexivity].
  - inversion N; subst. destruct (H m y S) as (m1 & E1 & S1 & A1 & B1). rewrite E1. cbn [bind].
    destruct (IH H3 m1 S1) as (m2 & E2 & S2 & A2). exists m2. split; [exact E2|]. split; [exact S2|]. intros x. destruct (A2 x) as [P Q]. split.
    + intros [<-|Hx]; [rewrite Q by assumption; exact A1|]. rewrite P by assumption. rewrite B1; [reflexivity|]. intros ->. contradiction.
    + intros Hx. rewrite Q by (intros C; apply Hx; right; exact C). apply B1. intros ->. apply Hx. left. reflexivity.
Qed.
Lemma each_pure {A} (op : A -> K -> A) m e : each X (fun m x => Ok (op m x)) m e = Ok (fold_left op e m).
Proof. unfold each. revert m. induction e as [|x e IH]; intros m; [reflexivity|]. cbn. apply IH. Qed.

(* ------------------------------------------------------------------------ sets *)
Section Sets.
Notation iset := (tree K unit).
Notation eset := (list (K * unit)).
Notation reach := (reach X k).
Notation sorted := (esorted X).

Lemma each_add (s : eset) e : sorted s -> sorted (fold_left (es_add X) e s) /\ forall y, has_elem X (fold_left (es_add X) e s) y <-> has_elem X s y \/ In y e.
Proof.
  revert s. induction e as [|x e IH]; intros s S; cbn [fold_left].
  - split; [exact S|]. intros y. cbn. tauto.
  - destruct (es_add_ok X HT s x S) as [S1 M1]. destruct (IH _ S1) as [S2 M2]. split; [exact S2|]. intros y. rewrite M2, M1. cbn. intuition congruence.
Qed.
Lemma each_subtract (s : eset) e : sorted s -> exists s', each X (es_subtract X) s e = Ok s' /\ sorted s' /\ forall y, has_elem X s' y <-> has_elem X s y /\ ~ In y e.
Proof.
  unfold each. revert s. induction e as [|x e IH]; intros s S; cbn [foldM].
  - exists s. split; [reflexivity|]. split; [exact S|]. intros y. cbn. tauto.
  - destruct (es_subtract_ok X HT s x S) as (s1 & E1 & S1 & M1). rewrite E1. cbn [bind]. destruct (IH _ S1) as (s2 & E2 & S2 & M2).
    exists s2. split; [exact E2|]. split; [exact S2|]. intros y. rewrite M2, M1. cbn. intuition congruence.
Qed.
Lemma each_flip (s : eset) e : sorted s -> NoDup e -> exists s', each X (es_flip X) s e = Ok s' /\ sorted s' /\
  forall y, has_elem X s' y <-> (has_elem X s y /\ ~ In y e) \/ (~ has_elem X s y /\ In y e).
Proof.
  intros S N. destruct (each_upd (es_flip X) (fun _ w => match w with Some _ => None | None => Some tt end) e) with (m := s) as (s' & E & S' & A); auto.
  { intros m x Sm. apply (es_flip_upd X HT). exact Sm. }
  exists s'. split; [exact E|]. split; [exact S'|]. intros y. destruct (A y) as [A1 A2]. unfold has_elem. rewrite !(emem_at X HT).
  destruct (in_dec (el_dec X HT) y e) as [I|I].
  - rewrite A1 by exact I. destruct (eat X s y); split; intros H.
    + congruence.
    + destruct H as [[_ H]|[H _]]; [contradiction|exfalso; apply H; discriminate].
    + right. split; [congruence|exact I].
    + discriminate.
  - rewrite A2 by exact I. tauto.
Qed.
Lemma each_isec (s r : eset) e : sorted s -> sorted r ->
  sorted (fold_left (fun r x => es_add_intersection_key X r s x) e r) /\
  forall y, has_elem X (fold_left (fun r x => es_add_intersection_key X r s x) e r) y <-> has_elem X r y \/ (has_elem X s y /\ In y e).
Proof.
  intros S. revert r. induction e as [|x e IH]; intros r Sr; cbn [fold_left].
  - split; [exact Sr|]. intros y. cbn. tauto.
  - destruct (es_isec_key_ok X HT r s x Sr S) as [S1 M1]. destruct (IH _ S1) as [S2 M2]. split; [exact S2|]. intros y. rewrite M2, M1. cbn. intuition congruence.
Qed.

Lemma ref_add st t s a e : reach st t -> sorted s -> sagrees X k t s -> enumerates X (mem a) e ->
  exists t' it, s_add X k st t a = Ok (t', it) /\ sagrees X k t' (fold_left (es_add X) e s).
Proof.
  intros R S A [N E]. destruct (thm_add X k HX st t a R) as (t' & it & E' & M). exists t', it. split; [exact E'|].
  intros x. destruct (each_add s e S) as [_ M']. rewrite M, M', (A x), (E x). reflexivity.
Qed.
Lemma ref_subtract st t s a e : reach st t -> sorted s -> sagrees X k t s -> enumerates X (mem a) e ->
  exists t' s', s_subtract X k t a = Ok t' /\ each X (es_subtract X) s e = Ok s' /\ sagrees X k t' s'.
Proof.
  intros R S A [N E]. destruct (thm_subtract X k HX st t a R) as (t' & E' & M). destruct (each_subtract s e S) as (s' & Es & _ & M').
  exists t', s'. split; [exact E'|]. split; [exact Es|]. intros x. rewrite M, M', (A x), (E x). reflexivity.
Qed.
Lemma ref_flip st t s a e : reach st t -> sorted s -> sagrees X k t s -> enumerates X (mem a) e -> e <> [] ->
  exists t' s', s_flip_seg X k st t a = Ok t' /\ each X (es_flip X) s e = Ok s' /\ sagrees X k t' s'.
Proof.
  intros R S A [N E] Ne. destruct (thm_flip X k HX st t a R) as (t' & E' & M). { destruct e as [|y e]; [congruence|]. exists y. apply E. left. reflexivity. }
  destruct (each_flip s e S N) as (s' & Es & _ & M').
  exists t', s'. split; [exact E'|]. split; [exact Es|]. intros x. rewrite M, M', (A x), (E x). reflexivity.
Qed.
Lemma ref_and st t s a e : reach st t -> sorted s -> sagrees X k t s -> enumerates X (mem a) e ->
  exists t', s_and_seg X k st t a = Ok t' /\ sagrees X k t' (fold_left (fun r x => es_add_intersection_key X r s x) e []).
Proof.
  intros R S A [N E]. destruct (thm_and_seg X k HX st t a R) as (t' & E' & M). exists t'. split; [exact E'|].
  intros x. destruct (each_isec s [] e S) as [_ M']; [constructor|]. rewrite M, M', (A x), (E x). unfold has_elem at 3. cbn. tauto.
Qed.
Section Whole.
Context (st st' : style) (t o : iset) (s so : eset) (R : reach st t) (Ro : reach st' o) (S : sorted s) (So : sorted so)
  (A : sagrees X k t s) (Ao : sagrees X k o so).
Lemma ref_add_set : exists t', s_add_set X k st t o = Ok t' /\ sagrees X k t' (es_add_set X s so).
Proof.
  destruct (thm_add_set X k HX st st' t o R Ro) as (t' & E & M). exists t'. split; [exact E|]. intros x.
  rewrite M, (A x), (Ao x). symmetry. apply (es_add_set_ok X HT). exact S.
Qed.
Lemma ref_subtract_set : exists t' s', s_subtract_set X k t o = Ok t' /\ es_subtract_set X s so = Ok s' /\ sagrees X k t' s'.
Proof.
  destruct (thm_subtract_set X k HX st st' t o R Ro) as (t' & E & M). destruct (es_subtract_set_ok X HT s so S) as (s' & Es & _ & M').
  exists t', s'. split; [exact E|]. split; [exact Es|]. intros x. rewrite M, M', (A x), (Ao x). reflexivity.
Qed.
Lemma ref_and_set : exists t' s', s_and_set X k st t o = Ok t' /\ es_and_set X s so = Ok s' /\ sagrees X k t' s'.
Proof.
  destruct (thm_and_set X k HX st st' t o R Ro) as (t' & E & M). destruct (es_isec_ok X HT [] s so) as (s' & Es & _ & M'); [constructor|exact S|exact So|].
  exists t', s'. split; [exact E|]. split; [exact Es|]. intros x. rewrite M, M', (A x), (Ao x). unfold has_elem at 3. cbn. tauto.
Qed.
Lemma ref_flip_set : exists t' s', s_flip_set X k st t o = Ok t' /\ es_flip_set X s so = Ok s' /\ sagrees X k t' s'.
Proof.
  destruct (thm_flip_set X k HX st st' t o R Ro) as (t' & E & M). destruct (es_flip_set_ok X HT s so S So) as (s' & Es & _ & M').
  exists t', s'. split; [exact E|]. split; [exact Es|]. intros x. rewrite M, M', (A x), (Ao x). reflexivity.
Qed.
End Whole.

Lemma smirror_ok st t s : smirror X k st t s -> reach st t /\ sreach X s /\ sagrees X k t s.
Proof.
  assert (E1 : forall e s, sreach X s -> sreach X (fold_left (es_add X) e s)).
  { induction e as [|x e IH]; intros s0 H; [exact H|]. cbn. apply IH. constructor. exact H. }
  assert (E2 : forall e s s', sreach X s -> each X (es_subtract X) s e = Ok s' -> sreach X s').
  { unfold each. induction e as [|x e IH]; intros s0 s' H E; cbn in E; [congruence|]. destruct (es_subtract X s0 x) as [s1|] eqn:E0; [|discriminate].
    apply (IH s1); [econstructor; eauto|exact E]. }
  assert (E3 : forall e s s', sreach X s -> each X (es_flip X) s e = Ok s' -> sreach X s').
  { unfold each. induction e as [|x e IH]; intros s0 s' H E; cbn in E; [congruence|]. destruct (es_flip X s0 x) as [s1|] eqn:E0; [|discriminate].
    apply (IH s1); [eapply S_flip; eauto|exact E]. }
  assert (E4 : forall e s r, sreach X s -> sreach X r -> sreach X (fold_left (fun r x => es_add_intersection_key X r s x) e r)).
  { induction e as [|x e IH]; intros s0 r H Hr; [exact Hr|]. cbn. apply IH; [exact H|]. apply S_isec_key; assumption. }
  induction 1 as [st|st t s a e t' it M IH En Et|st t s a e t' s' M IH En Et Es|st t s a e t' s' M IH En Ne Et Es|st t s a e t' M IH En Et
    |st st' t s o so t' M IH Mo IHo Et|st st' t s o so t' s' M IH Mo IHo Et Es|st st' t s o so t' s' M IH Mo IHo Et Es|st st' t s o so t' s' M IH Mo IHo Et Es].
  - split; [constructor|]. split; [constructor|]. intros x. split; [intros (a & [] & _)|intros []].
  - destruct IH as (R & Rs & A). destruct (ref_add st t s a e R (sreach_sorted X HT s Rs) A En) as (t1 & it1 & E & A'). rewrite E in Et. injection Et as <- <-.
    split; [eapply R_add; eauto|]. split; [apply E1; exact Rs|exact A'].
  - destruct IH as (R & Rs & A). destruct (ref_subtract st t s a e R (sreach_sorted X HT s Rs) A En) as (t1 & s1 & E & Es' & A').
    rewrite E in Et. injection Et as <-. rewrite Es' in Es. injection Es as <-. split; [eapply R_subtract; eauto|]. split; [eapply E2; eauto|exact A'].
  - destruct IH as (R & Rs & A). destruct (ref_flip st t s a e R (sreach_sorted X HT s Rs) A En Ne) as (t1 & s1 & E & Es' & A').
    rewrite E in Et. injection Et as <-. rewrite Es' in Es. injection Es as <-. split; [eapply R_flip; eauto|]. split; [eapply E3; eauto|exact A'].
  - destruct IH as (R & Rs & A). destruct (ref_and st t s a e R (sreach_sorted X HT s Rs) A En) as (t1 & E & A'). rewrite E in Et. injection Et as <-.
    split; [eapply R_and_seg; eauto|]. split; [apply E4; [exact Rs|constructor]|exact A'].
  - destruct IH as (R & Rs & A), IHo as (Ro & Rso & Ao).
    destruct (ref_add_set st st' t o s so R Ro (sreach_sorted X HT s Rs) A Ao) as (t1 & E & A'). rewrite E in Et. injection Et as <-.
    split; [exact (R_add_set X k st st' t o _ R Ro E)|]. split; [apply S_add_set; assumption|exact A'].
  - destruct IH as (R & Rs & A), IHo as (Ro & Rso & Ao).
    destruct (ref_subtract_set st st' t o s so R Ro (sreach_sorted X HT s Rs) A Ao) as (t1 & s1 & E & Es' & A'). rewrite E in Et. injection Et as <-.
    rewrite Es' in Es. injection Es as <-. split; [exact (R_subtract_set X k st st' t o _ R Ro E)|]. split; [exact (S_subtract_set X s so _ Rs Rso Es')|exact A'].
  - destruct IH as (R & Rs & A), IHo as (Ro & Rso & Ao).
    destruct (ref_and_set st st' t o s so R Ro (sreach_sorted X HT s Rs) (sreach_sorted X HT so Rso) A Ao) as (t1 & s1 & E & Es' & A'). rewrite E in Et. injection Et as <-.
    rewrite Es' in Es. injection Es as <-. split; [exact (R_and_set X k st st' t o _ R Ro E)|]. split; [exact (S_and_set X s so _ Rs Rso Es')|exact A'].
  - destruct IH as (R & Rs & A), IHo as (Ro & Rso & Ao).
    destruct (ref_flip_set st st' t o s so R Ro (sreach_sorted X HT s Rs) (sreach_sorted X HT so Rso) A Ao) as (t1 & s1 & E & Es' & A'). rewrite E in Et. injection Et as <-.
    rewrite Es' in Es. injection Es as <-. split; [exact (R_flip_set X k st st' t o _ R Ro E)|]. split; [exact (S_flip_set X s so _ Rs Rso Es')|exact A'].
Qed.
End Sets.
End Common.
