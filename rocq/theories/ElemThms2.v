(** Element containers: absorption, equality, order, domains and predicates. *)
From Verif Require Import ElemSpec ElemFacts ElemOps ElemQuery ElemThms.
From Coq Require Import Sorted.

Section MapThms.
Context (X : dom) (HT : strict_total X) (CC : codomain) (Hco : eq_ok CC) (p : mpar).
Notation K := (D X).
Notation V := (C CC).
Notation emap := (list (K * V)).
Notation eset := (list (K * unit)).
Notation at_ := (eat X).
Notation sorted := (esorted X).
Notation M := (mt CC p).
Notation upd1 := (upd1 X).
Notation store := (store CC p).
Notation absorbed := (absorbed CC p).
Notation reach := (ereach X CC p).

(* ------------------------------------------------------------- absorbers *)
Definition clean (m : emap) : Prop := forall x, at_ m x <> Some cc_zero.
Definition vclean (o : option V) : Prop := o <> Some cc_zero.

Section Absorber.
Context (Ha : mp_absorbs p = true) (Hp : proper CC p).

Lemma store_clean v : vclean (store v).
Proof.
  unfold vclean, MapSpec.store, MapSpec.absorbed. rewrite Ha. cbn [andb]. destruct (cc_eq v cc_zero) eqn:E; [discriminate|].
  intros C. injection C as ->. rewrite (cc_refl CC Hco) in E. discriminate.
Qed.
Lemma plus_clean f v o : first_ok CC f -> vclean o -> vclean (plus_val CC p f v o).
Proof.
  intros F H. unfold plus_val. destruct (absorbed v) eqn:E; [exact H|]. destruct o as [w|]; [apply store_clean|].
  intros C. injection C as C. apply F in C. subst v. unfold MapSpec.absorbed in E. rewrite Ha, (cc_refl CC Hco) in E. discriminate.
Qed.
Lemma hint_clean f v o : vclean o -> vclean (hint_val CC p f v o).
Proof. intros H. unfold hint_val. destruct (absorbed v); [exact H|]. destruct o; apply store_clean. Qed.
Lemma esub_clean v o : vclean o -> vclean (esub_val CC p v o).
Proof.
  intros H. unfold esub_val. destruct (mp_total p && cc_invertible CC) eqn:T; [apply plus_clean; [apply Hp; exact T|exact H]|].
  destruct o; [apply store_clean|discriminate].
Qed.
Lemma ins_clean v o : vclean o -> vclean (ins_val CC p v o).
Proof. intros H. unfold ins_val. destruct o; [exact H|apply store_clean]. Qed.
Lemma eflip_clean v o : vclean o -> vclean (eflip_val CC p v o).
Proof. intros H. unfold eflip_val. destruct o; [|apply store_clean]. destruct (absorbed v); [exact H|apply store_clean]. Qed.
Lemma upd1_clean m m' x o : upd1 m m' x o -> clean m -> vclean o -> clean m'.
Proof. intros (_ & A & B) C D y. destruct (el_dec X HT y x) as [->|N]; [rewrite A; exact D|rewrite B by exact N; apply C]. Qed.
Lemma comb_clean m o m' g : ecombined X m o m' g -> clean m -> (forall v w, vclean w -> vclean (g v w)) -> clean m'.
Proof. intros A C G x. rewrite A. destruct (at_ o x); [apply G|]; apply C. Qed.
Lemma chg_clean m m' (P : K -> Prop) : echanged X m m' P (fun _ => None) -> (forall x, {P x} + {~ P x}) -> clean m -> clean m'.
Proof. intros A D C x. destruct (A x) as [A1 A2]. destruct (D x); [rewrite A1 by assumption; discriminate|rewrite A2 by assumption; apply C]. Qed.
Lemma add_clean s x v s' : sorted s -> clean s -> em_add X M s x v = Ok s' -> clean s'.
Proof.
  intros S C E. destruct (add_upd X HT CC p (codomain_combine M) s x v S) as (s1 & E1 & U). unfold em_add in E. rewrite E1 in E. injection E as <-.
  eapply upd1_clean; eauto. apply plus_clean; [apply Hp|apply C].
Qed.
Lemma isec_pair_clean s m x v s' : sorted s -> sorted m -> clean s -> em_add_intersection_pair X M s m x v = Ok s' -> sorted s' /\ clean s'.
Proof.
  intros Ss S C E. destruct (mp_total p) eqn:T.
  - destruct (isec_pair_total X HT CC p s m x v T Ss S) as (s1 & s2 & E1 & E2 & S1 & U). rewrite E2 in E. injection E as <-. split; [apply U|].
    eapply upd1_clean; [exact U| |].
    + destruct (add_map_upd X HT CC p s m Ss (sorted_nodup X HT _ S)) as (s3 & E3 & S3 & A3). rewrite E3 in E1. injection E1 as <-.
      eapply comb_clean; eauto. intros. apply hint_clean. assumption.
    + destruct (add_map_upd X HT CC p s m Ss (sorted_nodup X HT _ S)) as (s3 & E3 & S3 & A3). rewrite E3 in E1. injection E1 as <-.
      apply plus_clean; [apply Hp|]. assert (C3 : clean s3) by (eapply comb_clean; eauto; intros; apply hint_clean; assumption). apply C3.
  - destruct (isec_pair_upd X HT CC p s m x v T Ss S) as (s1 & E1 & U). rewrite E1 in E. injection E as <-. split; [apply U|].
    eapply upd1_clean; [exact U|exact C|]. cbn [mt_co mt] in *. destruct (at_ m x); [|apply C]. apply plus_clean; [apply Hp|]. apply plus_clean; [apply Hp|apply C].
Qed.
Lemma ereach_clean m : reach false m -> clean m.
Proof.
  pose proof (@sorted_nodup X HT) as ND. pose proof (ereach_sorted X HT CC Hco p false) as SO. pose proof (sreach_sorted X HT) as SS.
  assert (DE : forall (o : eset) x, {has_elem X o x} + {~ has_elem X o x}) by (intros o x; apply (in_dec (el_dec X HT))).
  induction 1 as [|m x v Hr R IH|m x v m' Hr R IH H|m x v m' R IH H|m x v m' R IH H|m x v m' R IH H|m x v R IH|m x v m' c R IH H|m x m' c R IH H|m x v m' R IH H|m o m' R IH Ro IHo H|m o R IH Ro IHo|m o m' R IH Ro IHo H|m o m' R IH Ro IHo H|m o m' R IH Ro H|m o m' R IH Ro H|m o m' R IH Ro IHo H|s m x v s' Rs IHs R IH H|s m x s' Rs IHs R IH H|s m o s' Rs IHs R IH Ro H|s m o s' Rs IHs R IH Ro IHo H].
  - intros x. discriminate.
  - discriminate.
  - discriminate.
  - eapply add_clean; eauto.
  - destruct (add_hint_upd X HT CC p (codomain_combine M) m x v (SO _ R)) as (m1 & E & U). unfold em_add_hint in H. rewrite E in H. injection H as <-.
    eapply upd1_clean; eauto. apply hint_clean, IH.
  - destruct (subtract_upd X HT CC p m x v (SO _ R)) as (m1 & E & U). rewrite E in H. injection H as <-. eapply upd1_clean; eauto. apply esub_clean, IH.
  - destruct (minsert_upd X HT CC p m x v (SO _ R)) as [U _]. eapply upd1_clean; eauto. apply ins_clean, IH.
  - destruct (erase_pair_upd X HT CC Hco p m x v (SO _ R)) as (m1 & c1 & E & U & _). rewrite E in H. injection H as <- <-. eapply upd1_clean; eauto.
    destruct (absorbed v); [apply IH|]. unfold erase_val. destruct (at_ m x) eqn:A; [|discriminate]. destruct (cc_eq _ _); [discriminate|]. rewrite <- A. apply IH.
  - destruct (erase_key_upd X HT m x (SO _ R)) as (m1 & c1 & E & U & _). rewrite E in H. injection H as <- <-. eapply upd1_clean; eauto. discriminate.
  - destruct (mp_total p) eqn:T.
    + rewrite (flip_total_absorber X CC p m x v T Ha) in H. injection H as <-. intros y. discriminate.
    + destruct (flip_upd X HT CC Hco p m x v T (SO _ R)) as (m1 & E & U). rewrite E in H. injection H as <-. eapply upd1_clean; eauto. apply eflip_clean, IH.
  - destruct (add_map_upd X HT CC p m o (SO _ R) (ND _ _ (SO _ Ro))) as (m1 & E & _ & A). rewrite E in H. injection H as <-. eapply comb_clean; eauto. intros. apply hint_clean. assumption.
  - destruct (insert_map_upd X HT CC p m o (SO _ R) (ND _ _ (SO _ Ro))) as (_ & A). eapply comb_clean; eauto. intros. apply ins_clean. assumption.
  - destruct (subtract_map_upd X HT CC p m o (SO _ R) (ND _ _ (SO _ Ro))) as (m1 & E & _ & A). rewrite E in H. injection H as <-. eapply comb_clean; eauto. intros. apply esub_clean. assumption.
  - destruct (erase_map_upd X HT CC Hco p m o (SO _ R) (ND _ _ (SO _ Ro))) as (m1 & E & _ & A). rewrite E in H. injection H as <-. eapply comb_clean; eauto.
    cbn beta. intros v w C. destruct (absorbed v); [exact C|]. unfold erase_val. destruct w; [|discriminate]. destruct (cc_eq _ _); [discriminate|exact C].
  - destruct (erase_set_upd X HT CC p m o (SO _ R) (SS _ Ro)) as (m1 & E & _ & A). rewrite E in H. injection H as <-. eapply chg_clean; eauto.
  - destruct (subtract_set_upd X HT CC p m o (SO _ R) (SS _ Ro)) as (m1 & E & _ & A). rewrite E in H. injection H as <-. eapply chg_clean; eauto.
  - destruct (mp_total p) eqn:T.
    + rewrite (flip_map_total_absorber X CC p m o T Ha) in H. injection H as <-. intros y. discriminate.
    + destruct (flip_map_upd X HT CC Hco p m o T (SO _ R) (ND _ _ (SO _ Ro))) as (m1 & E & _ & A). rewrite E in H. injection H as <-. eapply comb_clean; eauto. intros. apply eflip_clean. assumption.
  - eapply isec_pair_clean; [| |exact IHs|exact H]; auto.
  - destruct (isec_key_upd X HT CC p s m x (SO _ Rs) (SO _ R)) as (m1 & E & U). rewrite E in H. injection H as <-. eapply upd1_clean; eauto.
    destruct (at_ m x); [apply plus_clean; [apply Hp|apply IHs]|apply IHs].
  - destruct (isec_set_at X HT CC p s m o (SO _ Rs) (SO _ R) (SS _ Ro)) as (m1 & E & _ & A). rewrite E in H. injection H as <-.
    intros x. rewrite A. destruct (eat X o x); [|apply IHs]. destruct (at_ m x); [apply plus_clean; [apply Hp|apply IHs]|apply IHs].
  - assert (Ss := SO _ Rs). assert (S := SO _ R). clear - HT Hco Ha Hp Ss S IHs H. unfold em_add_intersection_map in H. revert s Ss IHs H.
    induction o as [|n o IH]; intros s Ss C H; cbn [foldM] in H; [congruence|].
    destruct (isec_pair_sorted X HT CC p s m (fst n) (snd n) Ss S) as (s1 & E1 & S1). cbn [mt_co mt] in *. rewrite E1 in H. cbn [bind] in H.
    apply (IH s1); auto. eapply isec_pair_clean; [| | |exact E1]; auto.
Qed.
End Absorber.

(* ------------------------------------------------------------- equality, order *)
Lemma em_eqb_ok l r : sorted l -> sorted r -> (em_eqb X M l r = true <-> forall x, at_ l x = at_ r x).
Proof.
  intros S1 S2. unfold em_eqb. rewrite (eqb_spec X HT cc_eq); [|intros v w; apply Hco]. split; [intros ->; reflexivity|]. intros H. apply (eat_ext X HT); auto.
Qed.
Lemma em_ltb_order : co_order CC -> sto (fun l r : emap => em_ltb X M l r).
Proof. intros (I & T & C). apply lex_sto. apply (pair_sto X HT). split; [exact I|]. split; [exact T|exact C]. Qed.

(* ------------------------------------------------------------- distinct equality *)
Lemma proton_spec (m : emap) : sorted m ->
  sorted (em_next_proton X M m) /\ (length (em_next_proton X M m) <= length m)%nat /\
  (forall x v, v <> cc_zero -> (In (x, v) (em_next_proton X M m) <-> In (x, v) m)) /\
  match em_next_proton X M m with n :: _ => snd n <> cc_zero | [] => True end.
Proof.
  induction m as [|n m IH]; intros S; cbn [em_next_proton].
  - repeat split; auto.
  - cbn [mt_co mt] in *. destruct (cc_eq (snd n) cc_zero) eqn:E.
    + apply Hco in E. destruct IH as (S' & L & I & N); [apply (sorted_cons X) in S; tauto|]. repeat split; auto.
      * exact (le_S _ _ L).
      * intros H1. right. apply I; assumption.
      * intros [->|H1]; [cbn in E; congruence|]. apply I; assumption.
    + repeat split; auto. intros C. cbn [mt_co mt] in *. rewrite C, (cc_refl CC Hco) in E. discriminate.
Qed.
Definition nz_eq (l r : emap) : Prop := forall x v, v <> cc_zero -> (In (x, v) l <-> In (x, v) r).
Definition nz_head (l : emap) : Prop := match l with n :: _ => snd n <> cc_zero | [] => True end.
Lemma nz_eq_head (a b : K * V) l r : sorted (a :: l) -> sorted (b :: r) -> snd a <> cc_zero -> snd b <> cc_zero -> nz_eq (a :: l) (b :: r) -> a = b.
Proof.
  intros S1 S2 Za Zb E. apply (sorted_cons X) in S1, S2. destruct S1 as [S1 F1], S2 as [S2 F2].
  assert (A : In a (b :: r)) by (destruct a; apply E; [exact Za|left; reflexivity]).
  assert (B : In b (a :: l)) by (destruct b; apply E; [exact Zb|left; reflexivity]).
  destruct A as [->|A]; [reflexivity|]. destruct B as [->|B]; [reflexivity|]. apply F2 in A. apply F1 in B.
  rewrite (el_asym X HT _ _ A) in B. discriminate.
Qed.
Lemma nz_eq_tail (a : K * V) l r : sorted (a :: l) -> sorted (a :: r) -> (nz_eq (a :: l) (a :: r) <-> nz_eq l r).
Proof.
  intros S1 S2. apply (sorted_cons X) in S1, S2. destruct S1 as [S1 F1], S2 as [S2 F2].
  split; intros E x v Z; specialize (E x v Z); cbn [In] in *; [|tauto]. split; intros H.
  - destruct (proj1 E (or_intror H)) as [->|?]; [|assumption]. apply F1 in H. rewrite (el_irr X HT) in H. discriminate.
  - destruct (proj2 E (or_intror H)) as [->|?]; [|assumption]. apply F2 in H. rewrite (el_irr X HT) in H. discriminate.
Qed.
Lemma distinct_loop_spec fuel : forall l r, (length l < fuel)%nat -> sorted l -> sorted r -> nz_head l -> nz_head r ->
  exists b, em_distinct_loop X M fuel l r = Ok b /\ (b = true <-> nz_eq l r).
Proof.
  induction fuel as [|fuel IH]; intros l r L S1 S2 Z1 Z2; [lia|]. cbn [em_distinct_loop]. destruct l as [|a l], r as [|b r].
  - eexists. split; [reflexivity|]. split; [intros _ x v _; reflexivity|reflexivity].
  - eexists. split; [reflexivity|]. split; [discriminate|]. intros E. destruct b as [y w]. destruct (proj2 (E y w Z2) (or_introl eq_refl)).
  - eexists. split; [reflexivity|]. split; [discriminate|]. intros E. destruct a as [y w]. destruct (proj1 (E y w Z1) (or_introl eq_refl)).
  - cbn [mt_co mt] in *. destruct (eqb (fst a) (fst b) && cc_eq (snd a) (snd b)) eqn:E; cbn [negb].
    + apply andb_true_iff in E. destruct E as [E1 E2]. apply (eqb_eq X HT) in E1. apply Hco in E2.
      assert (E : a = b) by (destruct a, b; cbn in *; congruence). subst b.
      assert (S1' := S1). assert (S2' := S2). apply (sorted_cons X) in S1, S2.
      destruct (proton_spec l (proj1 S1)) as (P1 & L1 & I1 & N1). destruct (proton_spec r (proj1 S2)) as (P2 & L2 & I2 & N2).
      destruct (IH (em_next_proton X M l) (em_next_proton X M r)) as (c & Ec & Hc); auto.
      { exact (Nat.le_lt_trans _ _ _ L1 (proj2 (Nat.succ_lt_mono _ _) L)). }
      exists c. split; [exact Ec|]. rewrite Hc, (nz_eq_tail a l r S1' S2'). split; intros H x v Z; specialize (H x v Z); [rewrite I1, I2 in H|rewrite I1, I2]; assumption.
    + eexists. split; [reflexivity|]. split; [discriminate|]. intros H. apply nz_eq_head in H; auto. subst b. rewrite (eqb_refl X HT), (cc_refl CC Hco) in E. discriminate.
Qed.
Lemma in_at (l : emap) x v : sorted l -> (In (x, v) l <-> at_ l x = Some v).
Proof. intros S. split; [apply (eat_sorted X HT); exact S|apply (eat_in X HT)]. Qed.
Lemma distinct_eqb_ok l r : sorted l -> sorted r -> exists b, em_distinct_eqb X M l r = Ok b /\
  (b = true <-> forall x v, v <> cc_zero -> (at_ l x = Some v <-> at_ r x = Some v)).
Proof.
  intros S1 S2. unfold em_distinct_eqb. destruct (proton_spec l S1) as (P1 & L1 & I1 & N1). destruct (proton_spec r S2) as (P2 & L2 & I2 & N2).
  destruct (distinct_loop_spec (S (length l)) (em_next_proton X M l) (em_next_proton X M r)) as (b & E & H); auto.
  { exact (le_n_S _ _ L1). }
  exists b. split; [exact E|]. rewrite H. split; intros G x v Z; specialize (G x v Z); [rewrite I1, I2, !in_at in G by assumption|rewrite I1, I2, !in_at by assumption]; assumption.
Qed.

(* ------------------------------------------------------------- domain *)
Lemma domain_ok (s : eset) (m : emap) : sorted s -> sorted (em_domain X M s m) /\
  forall x, has_elem X (em_domain X M s m) x <-> has_elem X s x \/ at_ m x <> None.
Proof.
  intros S. unfold em_domain. revert s S. induction m as [|n m IH]; intros s S; cbn [fold_left].
  - split; [exact S|]. intros x. cbn. tauto.
  - destruct (es_add_ok X HT s (fst n) S) as [S1 M1]. destruct (IH _ S1) as [S2 M2]. split; [exact S2|]. intros x. rewrite M2, M1, (eat_cons X).
    destruct (eqb (fst n) x) eqn:E.
    + apply (eqb_eq X HT) in E. subst x. split; [intros _; right; discriminate|auto].
    + apply (eqb_neq X HT) in E. split; intros H; [destruct H as [[H|H]|H]; [congruence|auto|auto]|destruct H; auto].
Qed.

(* ------------------------------------------------------------- add_if *)
Lemma add_if_all (pr : K -> V -> bool) m src : sorted m -> sorted src -> (forall x v, at_ src x = Some v -> pr x v = true) ->
  exists m', em_add_if X M (S (length src)) pr m src = Ok m' /\ sorted m' /\ ecombined X m src m' (add_val CC p).
Proof.
  intros S So H.
  destruct (fold_upd X HT (fun m n => em_add X M m (fst n) (snd n)) (add_val CC p) src) with (m := m) as (m' & E & S' & A); auto.
  { intros m0 n S0 _. apply (add_upd X HT CC p (codomain_combine M)). exact S0. }
  { apply (sorted_nodup X HT). exact So. }
  exists m'. split; [|split; [exact S'|exact A]]. assert (Hin : forall n, In n src -> pr (fst n) (snd n) = true).
  { intros n Hn. apply H. apply in_at; [exact So|]. destruct n; exact Hn. }
  clear - E Hin. revert m E Hin. induction src as [|n src IH]; intros m E Hin; [exact E|]. cbn [length].
  change (em_add_if X M (S (S (length src))) pr m (n :: src)) with
    (if pr (fst n) (snd n) then m <- em_add X M m (fst n) (snd n) ;; em_add_if X M (S (length src)) pr m src
     else em_add_if X M (S (length src)) pr m (n :: src)).
  rewrite Hin by (left; reflexivity). cbn [foldM] in E. cbn [mt_co mt] in *. destruct (em_add X M m (fst n) (snd n)) as [m1|e]; [|discriminate]. cbn [bind] in *.
  apply IH; [exact E|]. intros c Hc. apply Hin. right. exact Hc.
Qed.
Lemma add_if_stuck (pr : K -> V -> bool) n src m fuel : pr (fst n) (snd n) = false -> em_add_if X M fuel pr m (n :: src) = Err Fuel.
Proof. intros H. induction fuel as [|fuel IH]; [reflexivity|]. cbn [em_add_if]. cbn [mt_co mt] in *. rewrite H. exact IH. Qed.
End MapThms.
