(** Element containers: what the operations do to reachable containers. *)
From Verif Require Import ElemSpec ElemFacts ElemOps ElemQuery.
From Coq Require Import Sorted.

Section SetThms.
Context (X : dom) (HT : strict_total X).
Notation K := (D X).
Notation eset := (list (K * unit)).
Notation at_ := (eat X).
Notation sorted := (esorted X).
Notation mem_ := (has_elem X).

Lemma emem_at {V} (s : list (K * V)) x : In x (map fst s) <-> at_ s x <> None.
Proof. symmetry. apply (eat_some_key X HT). Qed.
Lemma emem_eq (s s' : eset) x : at_ s x = at_ s' x -> (mem_ s x <-> mem_ s' x).
Proof. intros E. unfold has_elem. rewrite !emem_at, E. reflexivity. Qed.
Lemma unit_eq (s s' : eset) x : (mem_ s x <-> mem_ s' x) -> at_ s x = at_ s' x.
Proof.
  unfold has_elem. rewrite !emem_at. intros E. destruct (at_ s x) as [[]|], (at_ s' x) as [[]|]; auto; [|]; exfalso.
  - apply (proj1 E); congruence.
  - apply (proj2 E); congruence.
Qed.
Lemma upd1_mem (s s' : eset) x o : upd1 X s s' x o -> sorted s' /\ forall y, mem_ s' y <-> (y = x /\ o <> None) \/ (y <> x /\ mem_ s y).
Proof.
  intros (S & A & B). split; [exact S|]. intros y. unfold has_elem. rewrite !emem_at. destruct (el_dec X HT y x) as [->|N].
  - rewrite A. tauto.
  - rewrite (B y N). tauto.
Qed.

Lemma es_add_ok s x : sorted s -> sorted (es_add X s x) /\ forall y, mem_ (es_add X s x) y <-> y = x \/ mem_ s y.
Proof.
  intros S. destruct (insert_upd X HT s x tt S) as [U _]. apply upd1_mem in U. destruct U as [S' M]. split; [exact S'|].
  intros y. unfold es_add. rewrite M. destruct (el_dec X HT y x); [|tauto]. split; [tauto|]. intros _. left. split; [assumption|discriminate].
Qed.
Lemma es_subtract_ok s x : sorted s -> exists s', es_subtract X s x = Ok s' /\ sorted s' /\ forall y, mem_ s' y <-> mem_ s y /\ y <> x.
Proof.
  intros S. destruct (erase_key_upd X HT s x S) as (s' & c & E & U & _). unfold es_subtract. rewrite E. cbn [bind].
  apply upd1_mem in U. destruct U as [S' M]. exists s'. split; [reflexivity|]. split; [exact S'|]. intros y. rewrite M. split; [|tauto].
  intros [[_ F]|H]; [congruence|tauto].
Qed.
Lemma es_flip_upd (s : eset) x : sorted s -> exists s', es_flip X s x = Ok s' /\ upd1 X s s' x (match at_ s x with Some _ => None | None => Some tt end).
Proof.
  intros S. unfold es_flip. destruct (insert_cases X HT s x tt S) as [(l1 & w & l2 & -> & E & A)|(l1 & l2 & -> & E & A & S')]; rewrite E, A.
  - rewrite (erase_mid X). eexists. split; [reflexivity|]. apply (upd1_drop X HT _ _ _ _ S).
  - eexists. split; [reflexivity|]. apply (upd1_ins X HT _ _ _ _ S').
Qed.
Lemma es_flip_ok s x : sorted s -> exists s', es_flip X s x = Ok s' /\ sorted s' /\ forall y, mem_ s' y <-> (y = x /\ ~ mem_ s x) \/ (y <> x /\ mem_ s y).
Proof.
  intros S. destruct (es_flip_upd s x S) as (s' & E & U). apply upd1_mem in U. destruct U as [S' M]. exists s'. split; [exact E|]. split; [exact S'|].
  intros y. rewrite M. unfold has_elem. rewrite !emem_at. destruct (at_ s x) as [[]|]; split; intros [[H1 H2]|H]; auto.
  - exfalso. apply H2. discriminate.
  - left. split; [exact H1|]. discriminate.
Qed.
Lemma es_add_set_ok s o : sorted s -> sorted (es_add_set X s o) /\ forall y, mem_ (es_add_set X s o) y <-> mem_ s y \/ mem_ o y.
Proof.
  unfold es_add_set. revert s. induction o as [|n o IH]; intros s S; cbn [fold_left].
  - split; [exact S|]. intros y. unfold has_elem. cbn. tauto.
  - destruct (es_add_ok s (fst n) S) as [S1 M1]. destruct (IH _ S1) as [S2 M2]. split; [exact S2|]. intros y. rewrite M2, M1. unfold has_elem. cbn. intuition congruence.
Qed.
Lemma es_subtract_set_ok s o : sorted s -> exists s', es_subtract_set X s o = Ok s' /\ sorted s' /\ forall y, mem_ s' y <-> mem_ s y /\ ~ mem_ o y.
Proof.
  unfold es_subtract_set. revert s. induction o as [|n o IH]; intros s S; cbn [foldM].
  - exists s. split; [reflexivity|]. split; [exact S|]. intros y. unfold has_elem. cbn. tauto.
  - destruct (es_subtract_ok s (fst n) S) as (s1 & E1 & S1 & M1). rewrite E1. cbn [bind]. destruct (IH _ S1) as (s2 & E2 & S2 & M2).
    exists s2. split; [exact E2|]. split; [exact S2|]. intros y. rewrite M2, M1. unfold has_elem. cbn. intuition congruence.
Qed.
Lemma es_flip_set_ok s o : sorted s -> sorted o -> exists s', es_flip_set X s o = Ok s' /\ sorted s' /\
  forall y, mem_ s' y <-> (mem_ s y /\ ~ mem_ o y) \/ (~ mem_ s y /\ mem_ o y).
Proof.
  intros S So.
  destruct (fold_upd X HT (fun s (n : K * unit) => es_flip X s (fst n)) (fun _ w => match w with Some _ => None | None => Some tt end) o) with (m := s) as (s' & E & S' & A); auto.
  - intros m n Sm _. apply es_flip_upd. exact Sm.
  - apply (sorted_nodup X HT). exact So.
  - exists s'. split; [exact E|]. split; [exact S'|]. intros y. specialize (A y). unfold has_elem. rewrite !emem_at, A.
    destruct (at_ o y) as [[]|], (at_ s y) as [[]|]; split; intros H.
    + congruence.
    + destruct H as [[H1 H2]|[H1 H2]]; exfalso; [apply H2|apply H1]; congruence.
    + right. split; congruence.
    + congruence.
    + left. split; congruence.
    + congruence.
    + congruence.
    + destruct H as [[H1 H2]|[H1 H2]]; congruence.
Qed.
Lemma es_isec_key_ok sec s x : sorted sec -> sorted s -> sorted (es_add_intersection_key X sec s x) /\
  forall y, mem_ (es_add_intersection_key X sec s x) y <-> mem_ sec y \/ (y = x /\ mem_ s y).
Proof.
  intros S1 S2. unfold es_add_intersection_key. destruct (find_cases X HT s x S2) as [(l1 & w & l2 & E0 & E & A)|(E & A)]; rewrite E.
  - destruct (es_add_ok sec x S1) as [S' M]. split; [exact S'|]. intros y. rewrite M.
    assert (mem_ s x) by (apply emem_at; congruence). split; [intros [->|?]; auto|]. intros [?|[-> _]]; auto.
  - split; [exact S1|]. intros y. assert (~ mem_ s x) by (unfold has_elem; rewrite emem_at; congruence). split; [auto|]. intros [?|[-> ?]]; tauto.
Qed.
Lemma es_isec_ok sec s o : sorted sec -> sorted s -> sorted o -> exists s', es_add_intersection X sec s o = Ok s' /\ sorted s' /\
  forall y, mem_ s' y <-> mem_ sec y \/ (mem_ s y /\ mem_ o y).
Proof.
  intros Sc S So. unfold es_add_intersection. pose proof (common_range_spec X HT o s So S) as R. destruct (e_common_range X o s) as [(lwb, upb)|].
  - destruct R as (_ & _ & l0 & l & l1 & Eo & Er & D). rewrite Er. cbn [bind].
    assert (G : forall (l : eset) sec, sorted sec -> sorted (fold_left (fun sec n => es_add_intersection_key X sec s (fst n)) l sec) /\
      forall y, mem_ (fold_left (fun sec n => es_add_intersection_key X sec s (fst n)) l sec) y <-> mem_ sec y \/ (mem_ s y /\ mem_ l y)).
    { clear - HT S. induction l as [|n l IH]; intros sec Sc; cbn [fold_left].
      - split; [exact Sc|]. intros y. unfold has_elem. cbn. tauto.
      - destruct (es_isec_key_ok sec s (fst n) Sc S) as [S1 M1]. destruct (IH _ S1) as [S2 M2]. split; [exact S2|]. intros y. rewrite M2, M1. unfold has_elem. cbn. intuition congruence. }
    destruct (G l sec Sc) as [S' M]. eexists. split; [reflexivity|]. split; [exact S'|]. intros y. rewrite M. rewrite Eo. unfold has_elem. rewrite !map_app, !in_app_iff.
    split; [tauto|]. intros [?|[H1 [H2|[H2|H2]]]]; auto; exfalso; apply in_map_iff in H2; destruct H2 as (n & <- & H2); exact (D n (ltac:(auto)) H1).
  - exists sec. split; [reflexivity|]. split; [exact Sc|]. intros y. split; [auto|]. intros [?|[H1 H2]]; [assumption|]. exfalso. exact (R y H2 H1).
Qed.

Lemma sreach_sorted s : sreach X s -> sorted s.
Proof.
  induction 1.
  - constructor.
  - apply es_add_ok; assumption.
  - destruct (es_subtract_ok s x IHsreach) as (s1 & E & S & _). congruence.
  - destruct (es_flip_ok s x IHsreach) as (s1 & E & S & _). congruence.
  - apply es_isec_key_ok; [constructor|assumption].
  - apply es_add_set_ok; assumption.
  - destruct (es_subtract_set_ok s o IHsreach1) as (s1 & E & S & _). congruence.
  - destruct (es_flip_set_ok s o IHsreach1 IHsreach2) as (s1 & E & S & _). congruence.
  - destruct (es_isec_ok [] s o) as (s1 & E & S & _); [constructor|assumption|assumption|]. unfold es_and_set in *. congruence.
  - apply es_isec_key_ok; assumption.
  - destruct (es_isec_ok s s1 s2) as (s3 & E & S & _); [assumption..|]. congruence.
Qed.
Lemma es_eqb_ok s o : sorted s -> sorted o -> (es_eqb X s o = true <-> forall x, mem_ s x <-> mem_ o x).
Proof.
  intros S So. unfold es_eqb. rewrite (eqb_spec X HT); [|intros [] []; tauto]. split; [intros ->; reflexivity|].
  intros H. apply (eat_ext X HT); auto. intros x. apply unit_eq. apply H.
Qed.
Lemma es_ltb_order : sto (fun s o : eset => es_ltb X s o).
Proof. apply lex_sto. apply (pair_sto X HT). apply unit_sto. Qed.
End SetThms.

Section MapThms.
Context (X : dom) (HT : strict_total X) (CC : codomain) (Hco : eq_ok CC) (p : mpar).
Notation K := (D X).
Notation V := (C CC).
Notation emap := (list (K * V)).
Notation eset := (list (K * unit)).
Notation at_ := (eat X).
Notation sorted := (esorted X).
Notation M := (mt CC p).
Notation upd1 := (upd1 X).
Notation store := (store CC p).
Notation absorbed := (absorbed CC p).

(* ------------------------------------------------------------- total maps *)
Lemma isec_pair_total s m x (v : V) : mp_total p = true -> sorted s -> sorted m ->
  exists s1 s', em_add_map X M s m = Ok s1 /\ em_add_intersection_pair X M s m x v = Ok s' /\ sorted s1 /\ upd1 s1 s' x (add_val CC p v (at_ s1 x)).
Proof.
  intros Hp Ss S. unfold em_add_intersection_pair. cbn [mt_total mt]. rewrite Hp.
  destruct (add_map_upd X HT CC p s m Ss (sorted_nodup X HT _ S)) as (s1 & E1 & S1 & _). rewrite E1. cbn [bind].
  destruct (add_upd X HT CC p (codomain_combine M) s1 x v S1) as (s2 & E2 & U2). exists s1, s2. auto.
Qed.
Lemma isec_pair_sorted s m x (v : V) : sorted s -> sorted m -> exists s', em_add_intersection_pair X M s m x v = Ok s' /\ sorted s'.
Proof.
  intros Ss S. destruct (mp_total p) eqn:Hp.
  - destruct (isec_pair_total s m x v Hp Ss S) as (s1 & s' & _ & E & _ & U). exists s'. split; [exact E|apply U].
  - destruct (isec_pair_upd X HT CC p s m x v Hp Ss S) as (s' & E & U). exists s'. split; [exact E|apply U].
Qed.
Lemma isec_map_sorted s m o : sorted s -> sorted m -> exists s', em_add_intersection_map X M s m o = Ok s' /\ sorted s'.
Proof.
  intros Ss S. unfold em_add_intersection_map. revert s Ss. induction o as [|n o IH]; intros s Ss; cbn [foldM]; [eauto|].
  destruct (isec_pair_sorted s m (fst n) (snd n) Ss S) as (s1 & E1 & S1). cbn [mt_co mt] in *. rewrite E1. cbn [bind]. apply IH. exact S1.
Qed.
Lemma flip_total_absorber m x (v : V) : mp_total p = true -> mp_absorbs p = true -> em_flip X M m x v = Ok [].
Proof. intros Hp Ha. unfold em_flip. cbn [mt_total mt mt_absorbs]. rewrite Hp, Ha. reflexivity. Qed.
Lemma flip_total_enricher m x (v : V) : mp_total p = true -> mp_absorbs p = false -> sorted m ->
  exists m', em_flip X M m x v = Ok m' /\ sorted m' /\
    forall y, at_ m' y = if in_dec (el_dec X HT) y (x :: map fst m) then Some cc_zero else None.
Proof.
  intros Hp Ha S. unfold em_flip. cbn [mt_total mt mt_absorbs]. rewrite Hp, Ha.
  destruct (add_upd X HT CC p (codomain_combine M) m x v S) as (m1 & E1 & S1 & A1 & B1). unfold em_add. rewrite E1. cbn [bind].
  destruct (reset_upd X CC p m1 S1) as [S2 A2]. eexists. split; [reflexivity|]. split; [exact S2|]. intros y. cbn [mt_co mt] in *. rewrite A2.
  assert (N : at_ m1 y <> None <-> In y (x :: map fst m)).
  { destruct (el_dec X HT y x) as [->|Ny].
    - rewrite A1. split; [left; reflexivity|]. intros _. unfold plus_val, MapSpec.store, MapSpec.absorbed. rewrite Ha. cbn [andb]. destruct (at_ m x); discriminate.
    - rewrite B1 by exact Ny. rewrite (eat_some_key X HT). cbn. intuition congruence. }
  destruct (in_dec _ _ _) as [I|I]; destruct (at_ m1 y) eqn:E; auto; exfalso.
  - apply (proj2 N I). reflexivity.
  - apply I. apply N. discriminate.
Qed.
Lemma flip_sorted m x (v : V) : sorted m -> exists m', em_flip X M m x v = Ok m' /\ sorted m'.
Proof.
  intros S. destruct (mp_total p) eqn:Hp.
  - destruct (mp_absorbs p) eqn:Ha.
    + exists []. split; [apply flip_total_absorber; auto|constructor].
    + destruct (flip_total_enricher m x v Hp Ha S) as (m' & E & S' & _). eauto.
  - destruct (flip_upd X HT CC Hco p m x v Hp S) as (m' & E & U). exists m'. split; [exact E|apply U].
Qed.
Lemma flip_map_total_absorber m o : mp_total p = true -> mp_absorbs p = true -> em_flip_map X M m o = Ok [].
Proof. intros Hp Ha. unfold em_flip_map. cbn [mt_total mt mt_absorbs]. rewrite Hp, Ha. reflexivity. Qed.
Lemma flip_map_total_enricher m o : mp_total p = true -> mp_absorbs p = false -> sorted m ->
  exists m', em_flip_map X M m o = Ok m' /\ sorted m' /\
    forall y, at_ m' y = if in_dec (el_dec X HT) y (map fst o ++ map fst m) then Some cc_zero else None.
Proof.
  intros Hp Ha S. unfold em_flip_map. cbn [mt_total mt mt_absorbs]. rewrite Hp, Ha.
  assert (G : forall (o m : emap), sorted m -> exists m', foldM (fun m n => em_flip X M m (fst n) (snd n)) m o = Ok m' /\ sorted m' /\
    forall y, at_ m' y <> None <-> In y (map fst o ++ map fst m)).
  { clear m o S. induction o as [|n o IH]; intros m S; cbn [foldM].
    - exists m. split; [reflexivity|]. split; [exact S|]. intros y. apply (eat_some_key X HT).
    - destruct (flip_total_enricher m (fst n) (snd n) Hp Ha S) as (m1 & E1 & S1 & A1). cbn [mt_co mt] in *. rewrite E1. cbn [bind].
      destruct (IH m1 S1) as (m2 & E2 & S2 & A2). exists m2. split; [exact E2|]. split; [exact S2|]. intros y. rewrite A2, in_app_iff. cbn [map].
      rewrite <- app_comm_cons. change (In y (fst n :: map fst o ++ map fst m)) with (fst n = y \/ In y (map fst o ++ map fst m)). rewrite in_app_iff.
      rewrite <- (eat_some_key X HT m1), A1. cbn [map]. destruct (in_dec _ _ _) as [I|I].
      + split; [intros _; cbn in I; tauto|]. intros _. right. discriminate.
      + cbn in I. split; [intros [?|?]; [tauto|congruence]|tauto]. }
  destruct (G o m S) as (m1 & E1 & S1 & A1). cbn [mt_co mt] in *. rewrite E1. cbn [bind].
  destruct (reset_upd X CC p m1 S1) as [S2 A2]. eexists. split; [reflexivity|]. split; [exact S2|]. intros y. cbn [mt_co mt] in *. rewrite A2.
  destruct (in_dec _ _ _) as [I|I]; destruct (at_ m1 y) eqn:E; auto; exfalso.
  - apply (proj2 (A1 y) I). exact E.
  - apply I. apply A1. congruence.
Qed.
Lemma flip_map_sorted m o : sorted m -> sorted o -> exists m', em_flip_map X M m o = Ok m' /\ sorted m'.
Proof.
  intros S So. destruct (mp_total p) eqn:Hp.
  - destruct (mp_absorbs p) eqn:Ha.
    + exists []. split; [apply flip_map_total_absorber; auto|constructor].
    + destruct (flip_map_total_enricher m o Hp Ha S) as (m' & E & S' & _). eauto.
  - destruct (flip_map_upd X HT CC Hco p m o Hp S (sorted_nodup X HT _ So)) as (m' & E & S' & _). eauto.
Qed.

(* ------------------------------------------------------------- invariants *)
Lemma ereach_sorted raw m : ereach X CC p raw m -> sorted m.
Proof.
  pose proof (@sorted_nodup X HT) as ND.
  induction 1 as [|m x v Hr R IH|m x v m' Hr R IH H|m x v m' R IH H|m x v m' R IH H|m x v m' R IH H|m x v R IH|m x v m' c R IH H|m x m' c R IH H|m x v m' R IH H|m o m' R IH Ro IHo H|m o R IH Ro IHo|m o m' R IH Ro IHo H|m o m' R IH Ro IHo H|m o m' R IH Ro H|m o m' R IH Ro H|m o m' R IH Ro IHo H|s m x v s' Rs IHs R IH H|s m x s' Rs IHs R IH H|s m o s' Rs IHs R IH Ro H|s m o s' Rs IHs R IH Ro IHo H].
  - constructor.
  - destruct (insert_upd X HT m x v IH) as [U _]. apply U.
  - destruct H as (it & F & A). destruct (find_cases X HT m x IH) as [(l1 & w & l2 & -> & E & _)|(E & _)]; [|congruence]. rewrite E in F. injection F as <-.
    rewrite (assign_mid X) in A. injection A as <-. eapply (sorted_mid_val X). exact IH.
  - destruct (add_upd X HT CC p (codomain_combine M) m x v IH) as (m1 & E & U). unfold em_add in H. rewrite E in H. injection H as <-. apply U.
  - destruct (add_hint_upd X HT CC p (codomain_combine M) m x v IH) as (m1 & E & U). unfold em_add_hint in H. rewrite E in H. injection H as <-. apply U.
  - destruct (subtract_upd X HT CC p m x v IH) as (m1 & E & U). rewrite E in H. injection H as <-. apply U.
  - destruct (minsert_upd X HT CC p m x v IH) as [U _]. apply U.
  - destruct (erase_pair_upd X HT CC Hco p m x v IH) as (m1 & c1 & E & U & _). rewrite E in H. injection H as <- <-. apply U.
  - destruct (erase_key_upd X HT m x IH) as (m1 & c1 & E & U & _). rewrite E in H. injection H as <- <-. apply U.
  - destruct (flip_sorted m x v IH) as (m1 & E & U). rewrite E in H. injection H as <-. apply U.
  - destruct (add_map_upd X HT CC p m o IH (ND _ _ IHo)) as (m1 & E & U & _). rewrite E in H. injection H as <-. apply U.
  - destruct (insert_map_upd X HT CC p m o IH (ND _ _ IHo)) as (U & _). apply U.
  - destruct (subtract_map_upd X HT CC p m o IH (ND _ _ IHo)) as (m1 & E & U & _). rewrite E in H. injection H as <-. apply U.
  - destruct (erase_map_upd X HT CC Hco p m o IH (ND _ _ IHo)) as (m1 & E & U & _). rewrite E in H. injection H as <-. apply U.
  - destruct (erase_set_upd X HT CC p m o IH (sreach_sorted X HT o Ro)) as (m1 & E & U & _). rewrite E in H. injection H as <-. apply U.
  - destruct (subtract_set_upd X HT CC p m o IH (sreach_sorted X HT o Ro)) as (m1 & E & U & _). rewrite E in H. injection H as <-. apply U.
  - destruct (flip_map_sorted m o IH IHo) as (m1 & E & U). rewrite E in H. injection H as <-. apply U.
  - destruct (isec_pair_sorted s m x v IHs IH) as (m1 & E & U). rewrite E in H. injection H as <-. apply U.
  - destruct (isec_key_upd X HT CC p s m x IHs IH) as (m1 & E & U). rewrite E in H. injection H as <-. apply U.
  - destruct (isec_set_at X HT CC p s m o IHs IH (sreach_sorted X HT o Ro)) as (m1 & E & U & _). rewrite E in H. injection H as <-. apply U.
  - destruct (isec_map_sorted s m o IHs IH) as (m1 & E & U). rewrite E in H. injection H as <-. apply U.
Qed.
End MapThms.
