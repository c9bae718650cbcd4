(** Collectors are sets of pairs (proofs). *)
From Verif Require Import MapReach MapThms MapThms2 MapThms3 MapThms4 CollSpec DistinctThms ElemSpec ElemThms.
From Verif Require Import MapModel.
From Coq Require Import Sorted.

Section Values.
Context {U : Type} (CC : codomain) (has : CC -> U -> bool) (HS : set_type CC has) (s : mstyle) (b : bool).
Notation p := (coll s b).
Notation Hco := (st_eq CC has HS).

Definition ohas (o : option CC) (u : U) : bool := match o with Some v => has v u | None => false end.
Lemma coll_minus : mp_combine p <> F_minus. Proof. discriminate. Qed.
Lemma add_zero (v : CC) : cc_add cc_zero v = v.
Proof. apply (st_ext CC has HS). intros u. rewrite (st_add CC has HS), (st_zero CC has HS). reflexivity. Qed.
Lemma coll_proper : proper CC p.
Proof.
  unfold proper, neutral_ok, first_ok. split; [|split; [|split]].
  - intros v. cbn. apply add_zero.
  - cbn. auto.
  - cbn. discriminate.
  - unfold section. rewrite (st_sem CC has HS). cbn. auto.
Qed.
Lemma coll_section : section CC p = F_inter_section.
Proof. unfold section. rewrite (st_sem CC has HS). reflexivity. Qed.
Lemma absorbed_zero (v : CC) : absorbed CC p v = true -> v = cc_zero.
Proof. unfold absorbed. intros H. apply andb_prop in H. apply Hco. apply H. Qed.
Lemma store_has (v : CC) u : ohas (store CC p v) u = has v u.
Proof.
  unfold store. destruct (absorbed CC p v) eqn:E; [|reflexivity]. rewrite (absorbed_zero v E). cbn. symmetry. apply (st_zero CC has HS).
Qed.
Lemma add_has (v : CC) o u : ohas (add_val CC p v o) u = ohas o u || has v u.
Proof.
  rewrite (add_plain CC p v o coll_minus). destruct o as [w|]; [|apply store_has].
  destruct (absorbed CC p v) eqn:E.
  - rewrite (absorbed_zero v E), (st_zero CC has HS). cbn. rewrite Bool.orb_false_r. reflexivity.
  - rewrite store_has. cbn. apply (st_add CC has HS).
Qed.
Lemma sub_has (v : CC) o u : ohas (sub_val CC p v o) u = ohas o u && negb (has v u).
Proof.
  unfold sub_val. cbn [mp_total coll andb]. destruct (absorbed CC p v) eqn:E.
  - rewrite (absorbed_zero v E), (st_zero CC has HS). cbn. rewrite Bool.andb_true_r. reflexivity.
  - destruct o as [w|]; [|reflexivity]. rewrite store_has. cbn. apply (st_sub CC has HS).
Qed.
Lemma and_has (v : CC) o u : absorbed CC p v = false -> ohas (and_plain CC p v o) u = ohas o u && has v u.
Proof.
  intros E. unfold and_plain. destruct o as [w|]; [|reflexivity]. rewrite E, store_has, coll_section. cbn.
  rewrite (st_sem CC has HS). apply (st_and CC has HS).
Qed.
Lemma flip_has (v : CC) o u : ohas (flip_plain CC p v o) u = xorb (ohas o u) (has v u).
Proof.
  unfold flip_plain. destruct o as [w|]; rewrite store_has; [|cbn; destruct (has v u); reflexivity].
  rewrite (st_sem CC has HS), coll_section. cbn. rewrite (st_sem CC has HS). cbn. rewrite (st_xor CC has HS). apply Bool.xorb_comm.
Qed.
(** keys of an enricher *)
Lemma store_some (v : CC) : b = false -> store CC p v = Some v.
Proof. intros ->. reflexivity. Qed.
End Values.

Section Maps.
Context (X : dom) (k : kind) (HX : dom_ok X k) {U : Type} (CC : codomain) (has : CC -> U -> bool) (HS : set_type CC has).
Notation imap := (tree (D X) (C CC)).
Notation at_ := (at_ X k CC).
Notation mreach := (mreach X k CC).
Notation pair_in := (pair_in X k CC has).
Notation seg_pair := (seg_pair X k CC has).
Notation ohas := (ohas CC has).
Notation Hco := (st_eq CC has HS).
Notation P s b := (coll_proper CC has HS s b).

Lemma pair_has t x u : pair_in t x u <-> ohas (at_ t x) u = true.
Proof.
  unfold CollSpec.pair_in. destruct (at_ t x) as [v|]; cbn.
  - split; [intros (w & E & H); injection E as ->; exact H|eauto].
  - split; [intros (w & E & _); discriminate|discriminate].
Qed.
Lemma seg_has a v x u : seg_pair a v x u <-> memb X k a x && has v u = true.
Proof. unfold CollSpec.seg_pair. rewrite <- (memb_mem X k a x), Bool.andb_true_iff. reflexivity. Qed.
Lemma changed_has (t t' : imap) a g v (op : bool -> bool -> bool) : changed X k CC t t' (mem X k a) g ->
  (forall o u, ohas (g o) u = op (ohas o u) (has v u)) -> (forall c, op c false = c) ->
  forall x u, ohas (at_ t' x) u = op (ohas (at_ t x) u) (memb X k a x && has v u).
Proof.
  intros Q G O x u. destruct (Q x) as [Q1 Q2]. pose proof (memb_mem X k a x) as Mb. destruct (memb X k a x); cbn [andb].
  - rewrite Q1 by (apply Mb; reflexivity). apply G.
  - rewrite Q2 by (intros F; apply Mb in F; discriminate). symmetry. apply O.
Qed.
Lemma combined_has (t o t' : imap) g (op : bool -> bool -> bool) : combined X k CC t o t' g ->
  (forall v w u, ohas (g v w) u = op (ohas w u) (has v u)) -> (forall c, op c false = c) ->
  forall x u, ohas (at_ t' x) u = op (ohas (at_ t x) u) (ohas (at_ o x) u).
Proof.
  intros Q G O x u. rewrite Q. destruct (at_ o x) as [v|]; cbn; [apply G|symmetry; apply O].
Qed.
Lemma b_add c d : c || d = true <-> c = true \/ d = true. Proof. apply Bool.orb_true_iff. Qed.
Lemma b_sub c d : c && negb d = true <-> c = true /\ ~ d = true. Proof. destruct c, d; cbn; intuition congruence. Qed.
Lemma b_xor c d : xorb c d = true <-> (c = true /\ ~ d = true) \/ (~ c = true /\ d = true). Proof. destruct c, d; cbn; intuition congruence. Qed.
Hint Resolve Bool.orb_false_r Bool.andb_true_r Bool.xorb_false_r : core.

Section Ops.
Context (s : mstyle) (b : bool).
Notation p := (coll s b).

Lemma coll_add t a v : mreach p t -> exists t', m_add X k (mt CC p) t a v = Ok t' /\
  forall x u, pair_in t' x u <-> pair_in t x u \/ seg_pair a v x u.
Proof.
  intros Ht. destruct (thm_madd X k HX CC Hco p t Ht a v) as (t' & E & Q). exists t'. split; [exact E|]. intros x u.
  rewrite !pair_has, seg_has, <- b_add. rewrite (changed_has t t' a _ v orb Q (add_has CC has HS s b v)) by auto. reflexivity.
Qed.
Lemma coll_subtract t a v : mreach p t -> exists t', m_subtract X k (mt CC p) t a v = Ok t' /\
  forall x u, pair_in t' x u <-> pair_in t x u /\ ~ seg_pair a v x u.
Proof.
  intros Ht. destruct (thm_msub X k HX CC Hco p t Ht a v) as (t' & E & Q). exists t'. split; [exact E|]. intros x u.
  rewrite !pair_has, seg_has, <- b_sub. rewrite (changed_has t t' a _ v (fun c d => c && negb d) Q (sub_has CC has HS s b v)); [reflexivity|].
  intros c. apply Bool.andb_true_r.
Qed.
Lemma coll_flip t a v : mreach p t -> (exists x, mem X k a x) -> exists t', m_flip_seg X k (mt CC p) t a v = Ok t' /\
  forall x u, pair_in t' x u <-> (pair_in t x u /\ ~ seg_pair a v x u) \/ (~ pair_in t x u /\ seg_pair a v x u).
Proof.
  intros Ht Na. destruct (thm_mflip X k HX CC Hco p t Ht a v eq_refl (P s b) Na) as (t' & E & Q). exists t'. split; [exact E|]. intros x u.
  rewrite !pair_has, seg_has, <- b_xor. rewrite (changed_has t t' a _ v xorb Q).
  - reflexivity.
  - intros o u'. rewrite (flip_plain_eq CC p v o (coll_minus s b)). apply (flip_has CC has HS).
  - intros c. apply Bool.xorb_false_r.
Qed.
Lemma coll_and_seg t a v : mreach p t -> b = false \/ v <> cc_zero -> exists t', m_and_seg X k (mt CC p) t a v = Ok t' /\
  forall x u, pair_in t' x u <-> pair_in t x u /\ seg_pair a v x u.
Proof.
  intros Ht Hv. destruct (thm_mand_seg X k HX CC Hco p t Ht a v eq_refl) as (t' & E & Q). exists t'. split; [exact E|]. intros x u.
  assert (A : absorbed CC p v = false).
  { destruct (absorbed CC p v) eqn:A; [|reflexivity]. exfalso. destruct Hv as [->|Hv]; [discriminate A|]. apply Hv. exact (absorbed_zero CC has HS s b v A). }
  rewrite !pair_has, seg_has, <- Bool.andb_true_iff. destruct (Q x) as [Q1 Q2]. pose proof (memb_mem X k a x) as Mb. destruct (memb X k a x); cbn [andb].
  - rewrite Q1 by (apply Mb; reflexivity). rewrite (and_plain_eq X k HX CC Hco p t x v (coll_minus s b) (P s b) Ht), (and_has CC has HS s b v _ u A). reflexivity.
  - rewrite Q2 by (intros F; apply Mb in F; discriminate). rewrite Bool.andb_false_r. reflexivity.
Qed.
Lemma coll_add_map p' t o : mreach p t -> mreach p' o -> exists t', m_add_map X k (mt CC p) t o = Ok t' /\
  forall x u, pair_in t' x u <-> pair_in t x u \/ pair_in o x u.
Proof.
  intros Ht Ho. destruct (thm_madd_map X k HX CC Hco p p' t o Ht Ho (P s b)) as (t' & E & Q). exists t'. split; [exact E|]. intros x u.
  rewrite !pair_has, <- b_add. rewrite (combined_has t o t' _ orb Q (add_has CC has HS s b)) by auto. reflexivity.
Qed.
Lemma coll_subtract_map p' t o : mreach p t -> mreach p' o -> exists t', m_subtract_map X k (mt CC p) t o = Ok t' /\
  forall x u, pair_in t' x u <-> pair_in t x u /\ ~ pair_in o x u.
Proof.
  intros Ht Ho. destruct (thm_msub_map X k HX CC Hco p p' t o Ht Ho) as (t' & E & Q). exists t'. split; [exact E|]. intros x u.
  rewrite !pair_has, <- b_sub. rewrite (combined_has t o t' _ (fun c d => c && negb d) Q (sub_has CC has HS s b)); [reflexivity|].
  intros c. apply Bool.andb_true_r.
Qed.
Lemma coll_flip_map p' t o : mreach p t -> mreach p' o -> exists t', m_flip_map X k (mt CC p) t o = Ok t' /\
  forall x u, pair_in t' x u <-> (pair_in t x u /\ ~ pair_in o x u) \/ (~ pair_in t x u /\ pair_in o x u).
Proof.
  intros Ht Ho. destruct (thm_mflip_map X k HX CC Hco p p' t o Ht Ho eq_refl (P s b)) as (t' & E & Q). exists t'. split; [exact E|]. intros x u.
  rewrite !pair_has, <- b_xor. rewrite (combined_has t o t' _ xorb Q).
  - reflexivity.
  - intros v w u'. rewrite (flip_plain_eq CC p v w (coll_minus s b)). apply (flip_has CC has HS).
  - intros c. apply Bool.xorb_false_r.
Qed.
(** in an absorber the operand must not store the empty set, which no map with default combiners and absorbing traits does *)
Lemma no_zero s' b' o x v : mreach (coll s' b') o -> b = false \/ b' = true -> at_ o x = Some v -> absorbed CC p v = false.
Proof.
  intros Ho Hb E. destruct (absorbed CC p v) eqn:A; [|reflexivity]. exfalso. destruct Hb as [-> | ->]; [discriminate A|].
  pose proof (absorbed_zero CC has HS s b v A) as ->. unfold MapSpec.at_ in E.
  destruct (find _ (segs X CC o)) as [[a w]|] eqn:F; [|discriminate]. injection E as E. cbn in E. subst w.
  apply find_some in F. exact (thm_absorber X k HX CC Hco (coll s' true) o a cc_zero Ho (P s' true) eq_refl (proj1 F) eq_refl).
Qed.
Lemma coll_and_map s' b' t o : mreach p t -> mreach (coll s' b') o -> b = false \/ b' = true -> exists t', m_and_map X k (mt CC p) t o = Ok t' /\
  forall x u, pair_in t' x u <-> pair_in t x u /\ pair_in o x u.
Proof.
  intros Ht Ho Hb. destruct (thm_mand_map X k HX CC Hco p _ t o Ht Ho eq_refl) as (t' & E & Q). exists t'. split; [exact E|]. intros x u.
  rewrite !pair_has, <- Bool.andb_true_iff, Q. destruct (at_ o x) as [v|] eqn:Eo; [|cbn; rewrite Bool.andb_false_r; reflexivity].
  rewrite (and_plain_eq X k HX CC Hco p t x v (coll_minus s b) (P s b) Ht), (and_has CC has HS s b v _ u (no_zero s' b' o x v Ho Hb Eo)). reflexivity.
Qed.
Lemma coll_erase t a : mreach p t -> exists t', m_erase X k (mt CC p) t a = Ok t' /\
  forall x u, pair_in t' x u <-> pair_in t x u /\ ~ mem X k a x.
Proof.
  intros Ht. destruct (thm_merase X k HX CC Hco p t Ht a) as (t' & E & Q). exists t'. split; [exact E|]. intros x u.
  rewrite !pair_has. destruct (Q x) as [Q1 Q2]. pose proof (memb_mem X k a x) as Mb. destruct (memb X k a x).
  - rewrite Q1 by (apply Mb; reflexivity). cbn. intuition congruence.
  - rewrite Q2 by (intros F; apply Mb in F; discriminate). intuition congruence.
Qed.
Lemma coll_restrict t a : mreach p t -> exists t', m_and_itv X k (mt CC p) t a = Ok t' /\
  forall x u, pair_in t' x u <-> pair_in t x u /\ mem X k a x.
Proof.
  intros Ht. destruct (thm_mand_itv X k HX CC Hco p t Ht a (P s b)) as (t' & E & Q). exists t'. split; [exact E|]. intros x u.
  rewrite !pair_has. destruct (Q x) as [Q1 Q2]. rewrite (copy_plain X k HX CC Hco p t x (coll_minus s b) (P s b) Ht) in Q1.
  pose proof (memb_mem X k a x) as Mb. destruct (memb X k a x).
  - rewrite Q1 by (apply Mb; reflexivity). intuition congruence.
  - rewrite Q2 by (intros F; apply Mb in F; discriminate). cbn. intuition congruence.
Qed.

(** keys of an enricher *)
Definition okey (o : option CC) : Prop := o <> None.
Lemma key_plus (v : CC) o : b = false -> okey (add_val CC p v o).
Proof.
  intros B. rewrite (add_plain CC p v o (coll_minus s b)). unfold okey.
  destruct o as [w|]; [destruct (absorbed CC p v)|]; rewrite ?(store_some CC s b) by exact B; discriminate.
Qed.
Lemma key_sub (v : CC) o : b = false -> (okey (sub_val CC p v o) <-> okey o).
Proof.
  intros B. unfold sub_val, okey. cbn [mp_total coll andb]. destruct (absorbed CC p v); [tauto|].
  destruct o as [w|]; [|tauto]. rewrite (store_some CC s b) by exact B. split; discriminate.
Qed.
Lemma key_and (v : CC) o : b = false -> (okey (and_plain CC p v o) <-> okey o).
Proof.
  intros B. unfold and_plain, okey. destruct o as [w|]; [|tauto]. destruct (absorbed CC p v); [split; discriminate|].
  rewrite (store_some CC s b) by exact B. split; discriminate.
Qed.
Lemma key_flip (v : CC) o : b = false -> okey (flip_plain CC p v o).
Proof. intros B. unfold flip_plain, okey. destruct o as [w|]; rewrite (store_some CC s b) by exact B; discriminate. Qed.

(* ------------------------------------------------------------ expressions *)
Notation expr := (expr X CC).
Notation value := (value X k CC p).
Notation pairs_of := (pairs_of X k CC has).
Notation keys_of := (keys_of X k CC).
Lemma empty_at x : at_ t_empty x = None. Proof. reflexivity. Qed.

Lemma value_ok (env : nat -> imap) : (forall i, mreach p (env i)) -> forall e, exists t, value env e = Ok t /\ mreach p t /\
  (forall x u, pair_in t x u <-> pairs_of (fun i => pair_in (env i)) e x u) /\
  (b = false -> forall x, at_ t x <> None <-> keys_of (fun i x => at_ (env i) x <> None) e x).
Proof.
  intros He. induction e as [i| |a v|e IHe f IHf|e IHe f IHf|e IHe f IHf|e IHe f IHf]; cbn [CollSpec.value CollSpec.pairs_of CollSpec.keys_of].
  - exists (env i). split; [reflexivity|]. split; [apply He|]. split; [reflexivity|]. reflexivity.
  - exists t_empty. split; [reflexivity|]. split; [constructor|]. split.
    + intros x u. split; [intros (v & E & _); discriminate E|tauto].
    + intros _ x. rewrite empty_at. tauto.
  - assert (H0 : mreach p t_empty) by constructor. destruct (coll_add t_empty a v H0) as (t & E & Q). exists t. split; [exact E|].
    split; [exact (M_add X k CC p t_empty a v t H0 E)|]. split.
    + intros x u. rewrite Q. split; [intros [(w & F & _)|F]; [discriminate F|exact F]|tauto].
    + intros B x. destruct (thm_madd X k HX CC Hco p t_empty H0 a v) as (t2 & E2 & Q2). pose proof (eq_trans (eq_sym E) E2) as EE. injection EE as <-.
      destruct (Q2 x) as [Q3 Q4]. pose proof (memb_mem X k a x) as Mb. destruct (memb X k a x).
      * assert (Hx : mem X k a x) by (apply Mb; reflexivity). rewrite Q3 by exact Hx. split; [intros _; exact Hx|]. intros _. exact (key_plus v _ B).
      * rewrite Q4 by (intros F; apply Mb in F; discriminate). rewrite empty_at. intuition congruence.
  - destruct IHe as (t & E & R & Q & K), IHf as (o & F & Ro & Qo & Ko). rewrite E, F. cbn [mplus_ mop2 bind].
    destruct (coll_add_map p t o R Ro) as (t' & E' & Q'). exists t'. split; [exact E'|]. split; [exact (M_add_map X k CC p p t o t' R Ro E')|]. split.
    + intros x u. rewrite Q', Q, Qo. reflexivity.
    + intros B x. rewrite <- (K B), <- (Ko B). destruct (thm_madd_map X k HX CC Hco p p t o R Ro (P s b)) as (t2 & E2 & Q2).
      pose proof (eq_trans (eq_sym E') E2) as EE. injection EE as <-. rewrite Q2. destruct (at_ o x) as [v|].
      * split; [intros _; right; discriminate|]. intros _. exact (key_plus v _ B).
      * tauto.
  - destruct IHe as (t & E & R & Q & K), IHf as (o & F & Ro & Qo & Ko). rewrite E, F. cbn [mminus_ mop2 bind].
    destruct (coll_subtract_map p t o R Ro) as (t' & E' & Q'). exists t'. split; [exact E'|]. split; [exact (M_subtract_map X k CC p p t o t' R Ro E')|]. split.
    + intros x u. rewrite Q', Q, Qo. reflexivity.
    + intros B x. rewrite <- (K B). destruct (thm_msub_map X k HX CC Hco p p t o R Ro) as (t2 & E2 & Q2).
      pose proof (eq_trans (eq_sym E') E2) as EE. injection EE as <-. rewrite Q2. destruct (at_ o x) as [v|]; [|reflexivity]. exact (key_sub v _ B).
  - destruct IHe as (t & E & R & Q & K), IHf as (o & F & Ro & Qo & Ko). rewrite E, F. cbn [mand_ mop2 bind].
    destruct (coll_and_map s b t o R Ro) as (t' & E' & Q'). { destruct b; auto. }
    exists t'. split; [exact E'|]. split; [exact (M_isec_map X k CC p p t_empty t o t' (M_clear X k CC p) R Ro E')|]. split.
    + intros x u. rewrite Q', Q, Qo. reflexivity.
    + intros B x. rewrite <- (K B), <- (Ko B). destruct (thm_mand_map X k HX CC Hco p p t o R Ro eq_refl) as (t2 & E2 & Q2).
      pose proof (eq_trans (eq_sym E') E2) as EE. injection EE as <-. rewrite Q2. destruct (at_ o x) as [v|]; [|tauto].
      rewrite (and_plain_eq X k HX CC Hco p t x v (coll_minus s b) (P s b) R). pose proof (key_and v (at_ t x) B) as H. unfold okey in H. rewrite H.
      split; [intros Z; split; [exact Z|discriminate]|tauto].
  - destruct IHe as (t & E & R & Q & K), IHf as (o & F & Ro & Qo & Ko). rewrite E, F. cbn [mxor_ mop2 bind].
    destruct (coll_flip_map p t o R Ro) as (t' & E' & Q'). exists t'. split; [exact E'|]. split; [exact (M_flip_map X k CC p p t o t' R Ro E')|]. split.
    + intros x u. rewrite Q', Q, Qo. reflexivity.
    + intros B x. rewrite <- (K B), <- (Ko B). destruct (thm_mflip_map X k HX CC Hco p p t o R Ro eq_refl (P s b)) as (t2 & E2 & Q2).
      pose proof (eq_trans (eq_sym E') E2) as EE. injection EE as <-. rewrite Q2. destruct (at_ o x) as [v|].
      * rewrite (flip_plain_eq CC p v _ (coll_minus s b)). split; [intros _; right; discriminate|]. intros _. exact (key_flip v _ B).
      * tauto.
Qed.

(** a function is determined by its pairs and, for an enricher, its keys *)
Lemma nonzero_at t x v : b = true -> mreach p t -> at_ t x = Some v -> v <> cc_zero.
Proof.
  intros B Ht E Z. pose proof (no_zero s b t x v Ht (or_intror B) E) as A. unfold absorbed in A. cbn [mp_absorbs coll] in A. rewrite B in A. cbn [andb] in A. assert (cc_eq v cc_zero = true) by (apply Hco; exact Z). congruence.
Qed.
Lemma eq_has (v w : CC) : (forall u, has v u = true <-> has w u = true) -> v = w.
Proof. intros H. apply (st_ext CC has HS). intros u. specialize (H u). destruct (has v u), (has w u); intuition congruence. Qed.
Lemma zero_has (v : CC) : (forall u, has v u <> true) -> v = cc_zero.
Proof. intros H. apply eq_has. intros u. rewrite (st_zero CC has HS). specialize (H u). intuition congruence. Qed.
Lemma at_pairs t o : mreach p t -> mreach p o -> (forall x u, pair_in t x u <-> pair_in o x u) ->
  b = true \/ (forall x, at_ t x <> None <-> at_ o x <> None) -> forall x, at_ t x = at_ o x.
Proof.
  intros Ht Ho H K x. assert (Hx : forall u, ohas (at_ t x) u = true <-> ohas (at_ o x) u = true) by (intros u; rewrite <- !pair_has; apply H).
  destruct (at_ t x) as [v|] eqn:Et, (at_ o x) as [w|] eqn:Eo; cbn in Hx.
  - f_equal. apply eq_has. exact Hx.
  - exfalso. destruct K as [B|K]; [|specialize (K x); rewrite Et, Eo in K; apply (proj1 K); [discriminate|reflexivity]].
    apply (nonzero_at t x v B Ht Et). apply zero_has. intros u F. apply Hx in F. discriminate.
  - exfalso. destruct K as [B|K]; [|specialize (K x); rewrite Et, Eo in K; apply (proj2 K); [discriminate|reflexivity]].
    apply (nonzero_at o x w B Ho Eo). apply zero_has. intros u F. apply Hx in F. discriminate.
  - reflexivity.
Qed.
Lemma coll_law (env : nat -> imap) e f : (forall i, mreach p (env i)) ->
  (forall x u, pairs_of (fun i => pair_in (env i)) e x u <-> pairs_of (fun i => pair_in (env i)) f x u) ->
  b = true \/ (forall x, keys_of (fun i x => at_ (env i) x <> None) e x <-> keys_of (fun i x => at_ (env i) x <> None) f x) ->
  law X k CC p (value env e) (value env f).
Proof.
  intros He H K. destruct (value_ok env He e) as (t & E & R & Q & Kt), (value_ok env He f) as (o & F & Ro & Qo & Ko).
  assert (A : forall x, at_ t x = at_ o x).
  { apply at_pairs; auto. - intros x u. rewrite Q, Qo. apply H. - destruct b; [left; reflexivity|right]. destruct K as [K|K]; [discriminate|].
    intros x. rewrite (Kt eq_refl), (Ko eq_refl). apply K. }
  rewrite E, F. split; [exists t, o; auto|]. intros J. exists t, o. split; [reflexivity|]. split; [reflexivity|].
  apply (thm_meqb_joined X k HX CC Hco p p t o J J R Ro). exact A.
Qed.
Lemma distinct_pairs t o : (forall x u, pair_in t x u <-> pair_in o x u) <-> (forall x v, v <> cc_zero -> (at_ t x = Some v <-> at_ o x = Some v)).
Proof.
  split.
  - intros H x v Hv. assert (Hx : forall u, ohas (at_ t x) u = true <-> ohas (at_ o x) u = true) by (intros u; rewrite <- !pair_has; apply H).
    split; intros E; rewrite E in Hx; cbn in Hx.
    + destruct (at_ o x) as [w|]; [f_equal; symmetry; apply eq_has; exact Hx|]. exfalso. apply Hv, zero_has. intros u F. apply Hx in F. discriminate F.
    + destruct (at_ t x) as [w|]; [f_equal; apply eq_has; exact Hx|]. exfalso. apply Hv, zero_has. intros u F. apply Hx in F. discriminate F.
  - intros H x u. split; intros (v & E & F).
    + exists v. split; [|exact F]. apply (H x v); [|exact E]. intros ->. rewrite (st_zero CC has HS) in F. discriminate F.
    + exists v. split; [|exact F]. apply (H x v); [|exact E]. intros ->. rewrite (st_zero CC has HS) in F. discriminate F.
Qed.
Lemma coll_distinct t o : s = MJoin -> mreach p t -> mreach p o -> exists r, m_distinct_eqb X k (mt CC p) t o = Ok r /\
  (r = true <-> forall x u, pair_in t x u <-> pair_in o x u).
Proof.
  intros J Ht Ho. destruct (thm_distinct_joined X k HX CC Hco p t o J Ht Ho) as (r & E & Q). exists r. split; [exact E|].
  rewrite Q. symmetry. apply distinct_pairs.
Qed.
Lemma coll_law_distinct (env : nat -> imap) e f : s = MJoin -> (forall i, mreach p (env i)) ->
  (forall x u, pairs_of (fun i => pair_in (env i)) e x u <-> pairs_of (fun i => pair_in (env i)) f x u) ->
  meq_distinct X k CC p (value env e) (value env f).
Proof.
  intros J He H. destruct (value_ok env He e) as (t & E & R & Q & _), (value_ok env He f) as (o & F & Ro & Qo & _).
  destruct (coll_distinct t o J R Ro) as (r & D & Qr). exists t, o. split; [exact E|]. split; [exact F|].
  rewrite D. f_equal. apply Qr. intros x u. rewrite Q, Qo. apply H.
Qed.
(** == and is_element_equal of absorbers *)
Lemma coll_equal t o : s = MJoin -> b = true -> mreach p t -> mreach p o ->
  (m_eqb X k (mt CC p) t o = true <-> forall x u, pair_in t x u <-> pair_in o x u).
Proof.
  intros J B Ht Ho. rewrite (thm_meqb_joined X k HX CC Hco p p t o J J Ht Ho). split.
  - intros H x u. rewrite !pair_has, H. reflexivity.
  - intros H. apply at_pairs; auto.
Qed.
Lemma coll_element_equal s' t o : b = true -> mreach p t -> mreach (coll s' true) o ->
  exists r, m_element_equal X k (mt CC p) (co_atomic (mt CC p)) t o = Ok r /\ (r = true <-> forall x u, pair_in t x u <-> pair_in o x u).
Proof.
  intros B Ht Ho. destruct (thm_melement_equal X k HX CC Hco p _ t o Ht Ho) as (r & E & Q). exists r. split; [exact E|]. rewrite Q. split.
  - intros H x u. rewrite !pair_has, H. reflexivity.
  - intros H x. pose proof (proj1 (distinct_pairs t o) H x) as D.
    assert (N : forall v, at_ o x = Some v -> v <> cc_zero).
    { intros v Eo. unfold MapSpec.at_ in Eo. destruct (find _ (segs X CC o)) as [[a w]|] eqn:F; [|discriminate]. injection Eo as Eo. cbn in Eo. subst w.
      apply find_some in F. exact (thm_absorber X k HX CC Hco (coll s' true) o a v Ho (P s' true) eq_refl (proj1 F)). }
    pose proof (fun v => nonzero_at t x v B Ht) as N'.
    destruct (at_ t x) as [v|] eqn:Et.
    + symmetry. apply (D v); [apply N'|]; reflexivity.
    + destruct (at_ o x) as [w|] eqn:Eo; [|reflexivity]. apply (D w); [apply N|]; reflexivity.
Qed.
(** inclusion: the codomain comparison is inclusion of the associated sets *)
Lemma coll_inclusion s' b' (co : CC -> CC -> incl) t o :
  (forall v w, (fst (co v w) = true <-> forall u, has v u = true -> has w u = true) /\ (snd (co v w) = true <-> forall u, has w u = true -> has v u = true)) ->
  b = true -> mreach p t -> mreach (coll s' b') o ->
  m_contains_map X k (mt CC p) co o t = Ok true <-> forall x u, pair_in t x u -> pair_in o x u.
Proof.
  intros Hc B Ht Ho. destruct (thm_minclusion X k HX CC Hco p _ t o co (fun v w => forall u, has v u = true -> has w u = true) Ht Ho Hc) as (r & _ & Q & _ & E & _).
  rewrite E. assert (Q' : Ok (fst r) = Ok true <-> fst r = true) by (split; [intros F; injection F as F; exact F|intros ->; reflexivity]).
  rewrite Q', Q. unfold below_at. split.
  - intros H x u (v & Ev & Hv). destruct (H x v Ev) as (w & Ew & Hw). exists w. auto.
  - intros H x v Ev. destruct (at_ o x) as [w|] eqn:Eo.
    + exists w. split; [reflexivity|]. intros u Hu. destruct (H x u) as (w' & Ew & Hw); [exists v; auto|]. rewrite Eo in Ew. injection Ew as ->. exact Hw.
    + exfalso. apply (nonzero_at t x v B Ht Ev). apply zero_has. intros u Hu. destruct (H x u) as (w' & Ew & _); [exists v; auto|]. congruence.
Qed.
End Ops.
End Maps.

(* ------------------------------------------------------------ the documented laws *)
Section Laws.
Context (X : dom) (k : kind) (HX : dom_ok X k) {U : Type} (CC : codomain) (has : CC -> U -> bool) (HS : set_type CC has).
Context (s : mstyle) (absorbs : bool).
Notation p := (coll s absorbs).
Context (a b c : tree (D X) (C CC)) (Ha : mreach X k CC p a) (Hb : mreach X k CC p b) (Hc : mreach X k CC p c).
Notation plus := (mplus_ X k CC p).
Notation minus := (mminus_ X k CC p).
Notation and := (mand_ X k CC p).
Notation xor := (mxor_ X k CC p).
Notation A := (Ok a).
Notation B := (Ok b).
Notation C_ := (Ok c).
Notation law := (law X k CC p).
Definition env (i : nat) : tree (D X) (C CC) := match i with 0 => a | 1 => b | _ => c end.
Lemma env_ok i : mreach X k CC p (env i). Proof. destruct i as [|[|i]]; assumption. Qed.
Lemma by_sets e f : (forall va vb vc : D X -> U -> bool, forall x u,
     pairs_of X k CC has (fun i x u => match i with 0 => va | 1 => vb | _ => vc end x u = true) e x u <->
     pairs_of X k CC has (fun i x u => match i with 0 => va | 1 => vb | _ => vc end x u = true) f x u) ->
  (forall ka kb kc : D X -> Prop, forall x,
     keys_of X k CC (fun i x => match i with 0 => ka | 1 => kb | _ => kc end x) e x <->
     keys_of X k CC (fun i x => match i with 0 => ka | 1 => kb | _ => kc end x) f x) ->
  law (value X k CC p env e) (value X k CC p env f).
Proof.
  intros H K. apply (coll_law X k HX CC has HS s absorbs env e f env_ok).
  - intros x u. pose (h := fun t x u => ohas CC has (at_ X k CC t x) u). specialize (H (h a) (h b) (h c) x u).
    assert (G : forall g, pairs_of X k CC has (fun i => pair_in X k CC has (env i)) g x u <->
       pairs_of X k CC has (fun i x u => match i with 0 => h a | 1 => h b | _ => h c end x u = true) g x u).
    { induction g as [i| |y v|e1 IH1 e2 IH2|e1 IH1 e2 IH2|e1 IH1 e2 IH2|e1 IH1 e2 IH2]; cbn [pairs_of]; try rewrite IH1, IH2; try reflexivity.
      rewrite (pair_has X k CC has). destruct i as [|[|i]]; reflexivity. }
    rewrite !G. exact H.
  - right. intros x. pose (h := fun t x => at_ X k CC t x <> None). specialize (K (h a) (h b) (h c) x).
    assert (G : forall g, keys_of X k CC (fun i x => at_ X k CC (env i) x <> None) g x <->
       keys_of X k CC (fun i x => match i with 0 => h a | 1 => h b | _ => h c end x) g x).
    { induction g as [i| |y v|e1 IH1 e2 IH2|e1 IH1 e2 IH2|e1 IH1 e2 IH2|e1 IH1 e2 IH2]; cbn [keys_of]; try rewrite IH1, ?IH2; try reflexivity.
      destruct i as [|[|i]]; reflexivity. }
    rewrite !G. exact K.
Qed.
Ltac sets e f := apply (by_sets e f);
  [intros va vb vc x u; cbn [pairs_of]; destruct (va x u), (vb x u), (vc x u); intuition congruence|intros ka kb kc x; cbn [keys_of]; tauto].
Notation VA := (@Var X CC 0). Notation VB := (@Var X CC 1). Notation VC := (@Var X CC 2).

Lemma law_add_assoc : law (plus A (plus B C_)) (plus (plus A B) C_).
Proof. sets (Plus VA (Plus VB VC)) (Plus (Plus VA VB) VC). Qed.
Lemma law_add_neutral : law (plus A (Ok t_empty)) A.
Proof. sets (Plus VA Empty) (@Var X CC 0). Qed.
Lemma law_add_comm : law (plus A B) (plus B A).
Proof. sets (Plus VA VB) (Plus VB VA). Qed.
Lemma law_and_assoc : law (and A (and B C_)) (and (and A B) C_).
Proof. sets (And VA (And VB VC)) (And (And VA VB) VC). Qed.
Lemma law_and_comm : law (and A B) (and B A).
Proof. sets (And VA VB) (And VB VA). Qed.
Lemma law_sub_neutral : law (minus A (Ok t_empty)) A.
Proof. sets (Minus VA Empty) (@Var X CC 0). Qed.
Lemma law_distr_add_and : law (plus A (and B C_)) (and (plus A B) (plus A C_)).
Proof. sets (Plus VA (And VB VC)) (And (Plus VA VB) (Plus VA VC)). Qed.
Lemma law_distr_and_add : law (and A (plus B C_)) (plus (and A B) (and A C_)).
Proof. sets (And VA (Plus VB VC)) (Plus (And VA VB) (And VA VC)). Qed.
Lemma law_rdistr_add_sub : law (minus (plus A B) C_) (plus (minus A C_) (minus B C_)).
Proof. sets (Minus (Plus VA VB) VC) (Plus (Minus VA VC) (Minus VB VC)). Qed.
Lemma law_rdistr_and_sub : law (minus (and A B) C_) (and (minus A C_) (minus B C_)).
Proof. sets (Minus (And VA VB) VC) (And (Minus VA VC) (Minus VB VC)). Qed.
Lemma law_demorgan_add : law (minus A (plus B C_)) (and (minus A B) (minus A C_)).
Proof. sets (Minus VA (Plus VB VC)) (And (Minus VA VB) (Minus VA VC)). Qed.
Lemma law_demorgan_and : law (minus A (and B C_)) (plus (minus A B) (minus A C_)).
Proof. sets (Minus VA (And VB VC)) (Plus (Minus VA VB) (Minus VA VC)). Qed.
Lemma law_symdiff : law (minus (plus A B) (and A B)) (plus (minus A B) (minus B A)).
Proof. sets (Minus (Plus VA VB) (And VA VB)) (Plus (Minus VA VB) (Minus VB VA)). Qed.
Lemma law_xor : law (xor A B) (plus (minus A B) (minus B A)).
Proof. sets (Xor VA VB) (Plus (Minus VA VB) (Minus VB VA)). Qed.
Lemma law_xor_assoc : law (xor A (xor B C_)) (xor (xor A B) C_).
Proof. sets (Xor VA (Xor VB VC)) (Xor (Xor VA VB) VC). Qed.
Lemma law_xor_comm : law (xor A B) (xor B A).
Proof. sets (Xor VA VB) (Xor VB VA). Qed.
Lemma law_inverse : absorbs = true -> law (minus A A) (Ok t_empty).
Proof.
  intros T. apply (coll_law X k HX CC has HS s absorbs env (Minus VA VA) Empty env_ok); [|left; exact T].
  intros x u. cbn [pairs_of]. tauto.
Qed.
Lemma law_inverse_distinct : s = MJoin -> meq_distinct X k CC p (minus A A) (Ok t_empty).
Proof.
  intros J. apply (coll_law_distinct X k HX CC has HS s absorbs env (Minus VA VA) Empty J env_ok).
  intros x u. cbn [pairs_of]. tauto.
Qed.
End Laws.
