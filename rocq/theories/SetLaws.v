(** The documented laws of interval sets (doc/semantics.qbk), per cut. *)
From Verif Require Export SetProps.
From Coq Require Import Btauto.

Section SetLaws.
Context (X : dom) (k : kind).
Context (HX : dom_ok X k).
Notation I := (itv (D X)).
Notation node := (node (D X) unit).
Notation tree := (tree (D X) unit).
Notation pt := (pt X).
Notation ok := (cut_ok X k).
Notation sinv := (sinv X k).
Notation cmem := (cmem X k).

Definition bd_ (r l i : bool) : bool := (l || r) && negb i.
(** segment interiors of results, per style *)
Definition i_plus (st : style) (ra la ia rb lb ib : bool) : bool :=
  match st with
  | Joining => (la || lb) && (ra || rb)
  | Separating => ia || ib
  | Splitting => (la || lb) && (ra || rb) && negb (bd_ ra la ia) && negb (bd_ rb lb ib)
  end.
Definition i_and (st : style) (ra la ia rb lb ib : bool) : bool :=
  match st with Joining => (la && lb) && (ra && rb) | _ => ia && ib end.
Definition i_xor (st : style) (ra la ia rb lb ib : bool) : bool :=
  match st with
  | Joining => xorb la lb && xorb ra rb
  | _ => (ia && negb (lb || rb)) || (ib && negb (la || ra))
  end.

Definition is3 (t : tree) (fr fl fi : cut X -> bool) : Prop :=
  forall c, Rb k (nodes t) c = fr c /\ Lb k (nodes t) c = fl c /\ intr k (nodes t) c = fi c.
Notation R t := (Rb k (nodes t)).
Notation L t := (Lb k (nodes t)).
Notation N t := (intr k (nodes t)).

Lemma plus_at st a b : sinv st a -> inv k b -> exists t, s_add_set X k st a b = Ok t /\ sinv st t /\
  is3 t (fun c => R a c || R b c) (fun c => L a c || L b c) (fun c => i_plus st (R a c) (L a c) (N a c) (R b c) (L b c) (N b c)).
Proof.
  intros Ha Hb. destruct (s_add_set_at X k HX st a b Ha) as (t & E & S & P). exists t. conjs; auto.
  pose proof (proj2 (proj1 S)) as St.
  assert (J : st = Joining -> forall c, N t c = L t c && R t c). { intros ->. apply joined_b; auto. apply S. }
  intros c. specialize (J). destruct P as (P1 & P2). specialize (P1 c). rewrite (exr_keys X k), (exl_keys X k) in P1. destruct P1 as [E1 E2].
  conjs; auto. destruct st; cbn [i_plus].
  - rewrite J, E1, E2; auto.
  - rewrite P2. rewrite (exi_keys X k). auto.
  - rewrite P2, (exb_keys X k HX) by apply Hb. rewrite E1, E2. auto.
Qed.

Lemma minus_at st a b : sinv st a -> inv k b -> exists t, s_subtract_set X k a b = Ok t /\ sinv st t /\
  is3 t (fun c => R a c && negb (R b c)) (fun c => L a c && negb (L b c)) (fun c => N a c && negb (L b c || R b c)).
Proof.
  intros Ha Hb. destruct (s_subtract_set_at X k HX st a b Ha Hb) as (t & E & S & P). exists t. conjs; auto.
  intros c. specialize (P c). rewrite (exr_keys X k), (exl_keys X k) in P. auto.
Qed.

Lemma and_at st a b : inv k a -> inv k b -> exists t, s_and_set X k st a b = Ok t /\ sinv st t /\
  is3 t (fun c => R a c && R b c) (fun c => L a c && L b c) (fun c => i_and st (R a c) (L a c) (N a c) (R b c) (L b c) (N b c)).
Proof.
  intros Ha Hb. destruct (s_and_set_at X k HX st a b Ha Hb) as (t & E & S & P). exists t. conjs; auto.
  assert (J : st = Joining -> forall c, N t c = L t c && R t c). { intros ->. apply joined_b; auto; apply S. }
  intros c. destruct (P c) as (E1 & E2 & E3). conjs; auto. destruct st; cbn [i_and]; try (apply E3; discriminate).
  rewrite J, E1, E2; auto.
Qed.

Lemma xor_at st a b : sinv st a -> inv k b -> exists t, s_flip_set X k st a b = Ok t /\ sinv st t /\
  is3 t (fun c => xorb (R a c) (R b c)) (fun c => xorb (L a c) (L b c)) (fun c => i_xor st (R a c) (L a c) (N a c) (R b c) (L b c) (N b c)).
Proof.
  intros Ha Hb. destruct (s_flip_set_at X k HX st a b Ha Hb) as (t & E & S & P). exists t. conjs; auto.
  assert (J : st = Joining -> forall c, N t c = L t c && R t c). { intros ->. apply joined_b; auto; apply S. }
  intros c. destruct (P c) as (E1 & E2 & E3). conjs; auto. destruct st; cbn [i_xor]; try (apply E3; discriminate).
  rewrite J, E1, E2; auto.
Qed.

(* ---------------------------------------------------------------- denotation *)
Definition den (st : style) (r : res tree) (fr fl fi : cut X -> bool) : Prop :=
  exists t, r = Ok t /\ sinv st t /\ is3 t fr fl fi.

Lemma den_ok st a : sinv st a -> den st (Ok a) (R a) (L a) (N a).
Proof. intros H. exists a. conjs; auto. intros c. auto. Qed.
Lemma den_empty st : den st (Ok t_empty) (fun _ => false) (fun _ => false) (fun _ => false).
Proof. exists t_empty. conjs; auto. { apply sinv_empty; auto. } intros c. auto. Qed.
Ltac den2 lem st :=
  let t := fresh "t" in let u := fresh "u" in let St := fresh in let Su := fresh in let Ht := fresh in let Hu := fresh in
  let v := fresh in let E := fresh in let S := fresh in let Hv := fresh in let c := fresh in
  intros (t & -> & St & Ht) (u & -> & Su & Hu); unfold plus_, minus_, and_, xor_, op2; cbn [bind];
  destruct (lem st t u) as (v & E & S & Hv); [first [exact St|exact (proj1 St)]|exact (proj1 Su)|]; exists v; conjs; auto;
  intros c; destruct (Hv c) as (-> & -> & ->);
  let e1 := fresh in let e2 := fresh in let e3 := fresh in destruct (Ht c) as (e1 & e2 & e3); rewrite ?e1, ?e2, ?e3; clear e1 e2 e3;
  let e1 := fresh in let e2 := fresh in let e3 := fresh in destruct (Hu c) as (e1 & e2 & e3); rewrite ?e1, ?e2, ?e3; auto.
Lemma den_plus st r s fr fl fi gr gl gi : den st r fr fl fi -> den st s gr gl gi ->
  den st (plus_ X k st r s) (fun c => fr c || gr c) (fun c => fl c || gl c) (fun c => i_plus st (fr c) (fl c) (fi c) (gr c) (gl c) (gi c)).
Proof. den2 plus_at st. Qed.
Lemma den_minus st r s fr fl fi gr gl gi : den st r fr fl fi -> den st s gr gl gi ->
  den st (minus_ X k r s) (fun c => fr c && negb (gr c)) (fun c => fl c && negb (gl c)) (fun c => fi c && negb (gl c || gr c)).
Proof. den2 minus_at st. Qed.
Lemma den_and st r s fr fl fi gr gl gi : den st r fr fl fi -> den st s gr gl gi ->
  den st (and_ X k st r s) (fun c => fr c && gr c) (fun c => fl c && gl c) (fun c => i_and st (fr c) (fl c) (fi c) (gr c) (gl c) (gi c)).
Proof. den2 and_at st. Qed.
Lemma den_xor st r s fr fl fi gr gl gi : den st r fr fl fi -> den st s gr gl gi ->
  den st (xor_ X k st r s) (fun c => xorb (fr c) (gr c)) (fun c => xorb (fl c) (gl c)) (fun c => i_xor st (fr c) (fl c) (fi c) (gr c) (gl c) (gi c)).
Proof. den2 xor_at st. Qed.

Lemma den_eq_seg st r s fr fl fi gr gl gi : den st r fr fl fi -> den st s gr gl gi ->
  (forall c, fr c = gr c /\ fi c = gi c) -> eq_seg X k r s.
Proof.
  intros (t & -> & St & Ht) (u & -> & Su & Hu) H. exists t, u. conjs; auto.
  apply (s_eqb_at X k HX); [apply St|apply Su|]. intros c _.
  destruct (Ht c) as (-> & _ & ->); destruct (Hu c) as (-> & _ & ->). apply H.
Qed.

Lemma element_equal_at (l r : tree) : inv k l -> inv k r ->
  exists b, is_element_equal X k None l r = Ok b /\ (b = true <-> forall x, cmem l x <-> cmem r x).
Proof.
  intros Hl Hr. unfold is_element_equal. destruct (subset_compare_at X k HX None l r Hl Hr) as (b & -> & F1 & F2).
  cbn [bind]. eexists. split; eauto. rewrite andb_true_iff, F1, F2. unfold subx, supx, fsub, fsup.
  setoid_rewrite (cmem_Rb X k HX). split.
  - intros [A B] x. specialize (A x). specialize (B x). rewrite !vr_unit in A, B.
    destruct (R l (pt x)), (R r (pt x)); split; auto.
  - intros H. split; intros x; specialize (H x); rewrite !vr_unit; destruct (R l (pt x)), (R r (pt x)); auto; destruct H as [H1 H2]; (discriminate (H1 eq_refl) || discriminate (H2 eq_refl)).
Qed.

Lemma den_eq_elem st st' r s fr fl fi gr gl gi : den st r fr fl fi -> den st' s gr gl gi ->
  (forall c, fr c = gr c) -> eq_elem X k r s.
Proof.
  intros (t & -> & St & Ht) (u & -> & Su & Hu) H. exists t, u. conjs; auto.
  destruct (element_equal_at t u (proj1 St) (proj1 Su)) as (b & -> & Hb). f_equal. apply Hb.
  intros x. rewrite !(cmem_Rb X k HX). destruct (Ht (pt x)) as (-> & _); destruct (Hu (pt x)) as (-> & _). rewrite H. tauto.
Qed.

Lemma N_b st (t : tree) c : sinv st t -> N t c = N t c && L t c && R t c /\ (st = Joining -> N t c = L t c && R t c).
Proof.
  intros H. split.
  - destruct (N t c) eqn:E; auto. apply intr_b in E; auto. destruct E as [-> ->]. auto.
  - intros ->. apply joined_b; auto; apply H.
Qed.

Ltac dens := lazymatch goal with
  | |- den _ (plus_ _ _ _ _ _) _ _ _ => eapply den_plus; dens
  | |- den _ (minus_ _ _ _ _) _ _ _ => eapply den_minus; dens
  | |- den _ (and_ _ _ _ _ _) _ _ _ => eapply den_and; dens
  | |- den _ (xor_ _ _ _ _ _) _ _ _ => eapply den_xor; dens
  | |- den _ (Ok t_empty) _ _ _ => apply den_empty
  | |- den _ (Ok _) _ _ _ => apply den_ok; assumption
  end.
Ltac base c H := let A := fresh in let B := fresh in 
  match type of H with SetFacts.sinv _ _ ?st ?t =>
    pose proof (N_b st t c H) as [A B]; revert A B; generalize (N t c) (L t c) (R t c); intros ? ? ? A B end.
Ltac seg := match goal with st : style |- _ => eapply (den_eq_seg st) end; [dens|dens|]; cbn beta.
Ltac elem := match goal with st : style |- _ => eapply (den_eq_elem st st) end; [dens|dens|]; cbn beta; let d := fresh in intros d; btauto.
Ltac fin st := destruct st; cbn [i_plus i_and i_xor]; unfold bd_;
  repeat match goal with
  | H : Joining = Joining -> _ |- _ => specialize (H eq_refl)
  | H : ?x = ?x && _ && _, H' : _ = Joining -> _ |- _ => clear H'
  end;
  repeat match goal with b : bool |- _ => destruct b; cbn in *; try discriminate; auto end.
Section Laws.
Context (st : style) (a b c : tree) (Ha : sinv st a) (Hb : sinv st b) (Hc : sinv st c).
Notation A := (Ok a). Notation B := (Ok b). Notation C := (Ok c). Notation O := (Ok t_empty).
Infix "+" := (plus_ X k st). Infix "-" := (minus_ X k). Infix "&" := (and_ X k st) (at level 40). Infix "^" := (xor_ X k st).
Infix "==" := (eq_seg X k) (at level 70). Infix "=e=" := (eq_elem X k) (at level 70).


Ltac law := seg; let d := fresh "d" in intros d; try base d Ha; try base d Hb; try base d Hc; split; [btauto|]; fin st.
Lemma add_assoc : A + (B + C) == (A + B) + C. Proof. law. Qed.
Lemma add_comm : A + B == B + A. Proof. law. Qed.
Lemma add_neutral : A + O == A. Proof. law. Qed.
Lemma add_neutral_l : O + A == A. Proof. law. Qed.
Lemma add_idem : A + A == A. Proof. law. Qed.
Lemma and_assoc : A & (B & C) == (A & B) & C. Proof. law. Qed.
Lemma and_comm : A & B == B & A. Proof. law. Qed.
Lemma and_idem : A & A == A. Proof. law. Qed.
Lemma and_empty : A & O == O. Proof. law. Qed.
Lemma sub_neutral : A - O == A. Proof. law. Qed.
Lemma sub_self : A - A == O. Proof. law. Qed.
Lemma distr_add_and : st <> Splitting -> A + (B & C) == (A + B) & (A + C).
Proof. intros Hs. law; congruence. Qed.
Lemma distr_add_and_e : A + (B & C) =e= (A + B) & (A + C). Proof. elem. Qed.
Lemma distr_and_add : st <> Splitting -> A & (B + C) == (A & B) + (A & C).
Proof. intros Hs. law; congruence. Qed.
Lemma distr_and_add_e : A & (B + C) =e= (A & B) + (A & C). Proof. elem. Qed.
Lemma rdistr_add_sub : (A + B) - C == (A - C) + (B - C). Proof. law. Qed.
Lemma rdistr_and_sub : (A & B) - C == (A - C) & (B - C). Proof. law. Qed.
Lemma demorgan_add : A - (B + C) == (A - B) & (A - C). Proof. law. Qed.
Lemma demorgan_and : st = Joining -> A - (B & C) == (A - B) + (A - C).
Proof. intros Hs. law. Qed.
Lemma demorgan_and_e : A - (B & C) =e= (A - B) + (A - C). Proof. elem. Qed.
Lemma symdiff : (A + B) - (A & B) == (A - B) + (B - A). Proof. law. Qed.
Lemma xor_symdiff : A ^ B == (A - B) + (B - A). Proof. law. Qed.
Lemma xor_comm : A ^ B == B ^ A. Proof. law. Qed.
Lemma xor_assoc_e : A ^ (B ^ C) =e= (A ^ B) ^ C. Proof. elem. Qed.
End Laws.
End SetLaws.
