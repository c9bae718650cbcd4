(** Element containers: the theorems in terms of reachable containers. *)
From Verif Require Import ElemSpec ElemFacts ElemOps ElemQuery ElemThms ElemThms2 ElemRefine ElemRefine2.
From Verif Require Import SetSpec SetThms MapReach MapThms MapThms2 MapThms3 MapThms4.
From Coq Require Import Sorted.

Section Elem.
Context (X : dom) (HT : strict_total X).
Notation K := (D X).

Section Maps.
Context (CC : codomain) (Hco : eq_ok CC) (p : mpar) (raw : bool).
Notation V := (C CC).
Notation M := (mt CC p).
Notation emap := (list (K * V)).
Notation ereach := (ereach X CC p raw).
Notation eat := (eat X).
Notation so H := (ereach_sorted X HT CC Hco p raw _ H).
Notation nd H := (sorted_nodup X HT _ (so H)).

Section One.
Context (m : emap) (R : ereach m).
Lemma top_add x v : exists m', em_add X M m x v = Ok m' /\ echanged X m m' (eq x) (add_val CC p v).
Proof. destruct (add_upd X HT CC p (codomain_combine M) m x v (so R)) as (m' & E & U). exists m'. split; [exact E|apply (upd1_changed X), U]. Qed.
Lemma top_add_hint x v : proper CC p -> exists m', em_add_hint X M m x v = Ok m' /\ echanged X m m' (eq x) (add_val CC p v).
Proof.
  intros P. destruct (add_hint_upd X HT CC p (codomain_combine M) m x v (so R)) as (m' & E & U). exists m'. split; [exact E|].
  assert (Q : forall o, hint_val CC p (mp_combine p) v o = add_val CC p v o) by (intros o; apply (hint_plus CC Hco p); apply P).
  unfold codomain_combine in U. cbn [mt_combine mt] in U. rewrite Q in U. apply (upd1_changed X), U.
Qed.
Lemma top_subtract x v : exists m', em_subtract X M m x v = Ok m' /\ echanged X m m' (eq x) (esub_val CC p v).
Proof. destruct (subtract_upd X HT CC p m x v (so R)) as (m' & E & U). exists m'. split; [exact E|apply (upd1_changed X), U]. Qed.
Lemma top_insert x v : echanged X m (fst (fst (em_insert X M m x v))) (eq x) (ins_val CC p v) /\
  (snd (em_insert X M m x v) = true <-> absorbed CC p v = true \/ eat m x = None).
Proof. destruct (minsert_upd X HT CC p m x v (so R)) as (U & F & _). split; [apply (upd1_changed X), U|exact F]. Qed.
Lemma top_erase_pair x v : exists m' c, em_erase_pair X M m x v = Ok (m', c) /\
  echanged X m m' (eq x) (fun o => if absorbed CC p v then o else erase_val CC v o) /\
  c = (if absorbed CC p v then 0 else match eat m x with Some w => if cc_eq w v then 1 else 0 | None => 0 end)%nat.
Proof.
  destruct (erase_pair_upd X HT CC Hco p m x v (so R)) as (m' & c & E & U & Ec). exists m', c. split; [exact E|]. split; [|exact Ec].
  apply (upd1_changed X m m' x (fun o => if absorbed CC p v then o else erase_val CC v o)). exact U.
Qed.
Lemma top_erase_key x : exists m' c, e_erase_key X m x = Ok (m', c) /\ echanged X m m' (eq x) (fun _ => None) /\
  c = (match eat m x with Some _ => 1 | None => 0 end)%nat.
Proof.
  destruct (erase_key_upd X HT m x (so R)) as (m' & c & E & U & Ec). exists m', c. split; [exact E|]. split; [|exact Ec].
  apply (upd1_changed X m m' x (fun _ => None)). exact U.
Qed.
Lemma top_flip x v : mp_total p = false -> exists m', em_flip X M m x v = Ok m' /\ echanged X m m' (eq x) (eflip_val CC p v).
Proof. intros T. destruct (flip_upd X HT CC Hco p m x v T (so R)) as (m' & E & U). exists m'. split; [exact E|apply (upd1_changed X), U]. Qed.
Lemma top_flip_enricher x v : mp_total p = true -> mp_absorbs p = false -> exists m', em_flip X M m x v = Ok m' /\
  forall y, (y = x \/ eat m y <> None -> eat m' y = Some cc_zero) /\ (y <> x -> eat m y = None -> eat m' y = None).
Proof.
  intros T Ha. destruct (flip_total_enricher X HT CC p m x v T Ha (so R)) as (m' & E & _ & A). exists m'. split; [exact E|]. intros y.
  rewrite A. pose proof (eat_some_key X HT m y) as Q. destruct (in_dec _ _ _) as [I|I]; cbn [In] in I; split; try reflexivity.
  - intros N0 N1. exfalso. destruct I as [->|I]; [congruence|]. apply Q in I. contradiction.
  - intros [->|N]; exfalso; apply I; [left; reflexivity|right; apply Q; exact N].
Qed.
Lemma top_and_pair x v : mp_total p = false -> exists m', em_and_pair X M m x v = Ok m' /\
  forall y, (y = x -> eat m' y = and_val CC p v (eat m y)) /\ (y <> x -> eat m' y = None).
Proof.
  intros T. unfold em_and_pair. cbn [mt_total mt]. rewrite T.
  destruct (isec_pair_upd X HT CC p [] m x v T ltac:(constructor) (so R)) as (m' & E & _ & A & B). exists m'. split; [exact E|]. intros y. split.
  - intros ->. cbn [mt_co mt] in *. rewrite A. unfold and_val. destruct (eat m x); reflexivity.
  - intros N. cbn [mt_co mt] in *. rewrite B by exact N. reflexivity.
Qed.
Lemma top_and_pair_total x v : mp_total p = true -> exists m', em_and_pair X M m x v = Ok m' /\ echanged X m m' (eq x) (add_val CC p v).
Proof. intros T. unfold em_and_pair. cbn [mt_total mt]. rewrite T. apply top_add. Qed.
Lemma top_and_key x : proper CC p -> mp_combine p <> F_minus -> mp_absorbs p = false \/ raw = false ->
  exists m', em_and_key X M m x = Ok m' /\ forall y, eat m' y = if el_dec X HT y x then eat m y else None.
Proof.
  intros P Hf Hr. destruct (isec_key_upd X HT CC p [] m x ltac:(constructor) (so R)) as (m' & E & _ & U1 & U2). exists m'. split; [exact E|].
  intros y. destruct (el_dec X HT y x) as [->|N]; [|apply U2; exact N]. cbn [mt_co mt] in *. rewrite U1. destruct (eat m x) as [w|] eqn:Ew; [|reflexivity].
  cbn [ElemSpec.eat find]. rewrite add_plain by exact Hf. unfold store. destruct (absorbed CC p w) eqn:Ab; [|reflexivity]. exfalso.
  unfold absorbed in Ab. apply andb_true_iff in Ab. destruct Ab as [Ea Ez]. apply Hco in Ez. subst w. destruct Hr as [Hr|Hr]; [congruence|].
  rewrite Hr in R. exact (ereach_clean X HT CC Hco p Ea P m R x Ew).
Qed.
Lemma top_lookup x : em_lookup X M m x = Ok (match eat m x with Some v => v | None => cc_zero end).
Proof. apply (lookup_spec X HT CC p). exact (so R). Qed.
Lemma top_contains_key x : e_contains_key X m x = true <-> eat m x <> None.
Proof.
  unfold e_contains_key. destruct (find_cases X HT m x (so R)) as [(l1 & w & l2 & _ & E & A)|(E & A)]; rewrite E, A; split; congruence.
Qed.
Lemma top_contains_pair x v : exists b, em_contains_pair X M m x v = Ok b /\ (b = true <-> eat m x = Some v).
Proof. apply (contains_pair_spec X HT CC Hco p). exact (so R). Qed.
End One.

Section Two.
Context (m o : emap) (R : ereach m) (Ro : ereach o).
Lemma top_add_map : proper CC p -> exists m', em_add_map X M m o = Ok m' /\ ecombined X m o m' (add_val CC p).
Proof.
  intros P. destruct (add_map_upd X HT CC p m o (so R) (nd Ro)) as (m' & E & _ & C). exists m'. split; [exact E|]. intros x. rewrite C.
  destruct (eat o x); [|reflexivity]. apply (hint_plus CC Hco p); apply P.
Qed.
Lemma top_subtract_map : exists m', em_subtract_map X M m o = Ok m' /\ ecombined X m o m' (esub_val CC p).
Proof. destruct (subtract_map_upd X HT CC p m o (so R) (nd Ro)) as (m' & E & _ & C). eauto. Qed.
Lemma top_insert_map : ecombined X m o (em_insert_map X M m o) (ins_val CC p).
Proof. apply (insert_map_upd X HT CC p m o (so R) (nd Ro)). Qed.
Lemma top_erase_map : exists m', em_erase_map X M m o = Ok m' /\ ecombined X m o m' (fun v w => if absorbed CC p v then w else erase_val CC v w).
Proof. destruct (erase_map_upd X HT CC Hco p m o (so R) (nd Ro)) as (m' & E & _ & C). eauto. Qed.
Lemma top_flip_map : mp_total p = false -> exists m', em_flip_map X M m o = Ok m' /\ ecombined X m o m' (eflip_val CC p).
Proof. intros T. destruct (flip_map_upd X HT CC Hco p m o T (so R) (nd Ro)) as (m' & E & _ & C). eauto. Qed.
Lemma top_and_map : mp_total p = false -> exists m', em_and_map X M m o = Ok m' /\
  forall x, eat m' x = match eat o x with Some v => and_val CC p v (eat m x) | None => None end.
Proof.
  intros T. unfold em_and_map. cbn [mt_total mt]. rewrite T.
  destruct (isec_map_upd X HT CC p [] m o T ltac:(constructor) (so R) (nd Ro)) as (m' & E & _ & C). exists m'. split; [exact E|]. intros x. rewrite C.
  destruct (eat o x); [|reflexivity]. unfold and_val. destruct (eat m x); reflexivity.
Qed.
Lemma top_flip_map_enricher : mp_total p = true -> mp_absorbs p = false -> exists m', em_flip_map X M m o = Ok m' /\
  forall y, (eat o y <> None \/ eat m y <> None -> eat m' y = Some cc_zero) /\ (eat o y = None -> eat m y = None -> eat m' y = None).
Proof.
  intros T Ha. destruct (flip_map_total_enricher X HT CC p m o T Ha (so R)) as (m' & E & _ & A). exists m'. split; [exact E|]. intros y.
  rewrite A. pose proof (eat_some_key X HT m y) as Q. pose proof (eat_some_key X HT o y) as Q'. destruct (in_dec _ _ _) as [I|I]; rewrite in_app_iff in I; split; try reflexivity.
  - intros N0 N1. exfalso. destruct I as [I|I]; [apply Q' in I|apply Q in I]; contradiction.
  - intros [N|N]; exfalso; apply I; [left; apply Q'|right; apply Q]; exact N.
Qed.
Lemma top_and_map_total : proper CC p -> mp_total p = true -> exists m', em_and_map X M m o = Ok m' /\ ecombined X m o m' (add_val CC p).
Proof. intros P T. unfold em_and_map. cbn [mt_total mt]. rewrite T. apply top_add_map. exact P. Qed.
Lemma top_eqb : em_eqb X M m o = true <-> forall x, eat m x = eat o x.
Proof. apply (em_eqb_ok X HT CC Hco p); [exact (so R)|exact (so Ro)]. Qed.
Lemma top_distinct : exists b, em_distinct_eqb X M m o = Ok b /\ (b = true <-> forall x v, v <> cc_zero -> (eat m x = Some v <-> eat o x = Some v)).
Proof. apply (distinct_eqb_ok X HT CC Hco p); [exact (so R)|exact (so Ro)]. Qed.
Lemma top_within : exists b, em_within X M m o = Ok b /\ (b = true <-> forall x v, eat m x = Some v -> eat o x = Some v).
Proof.
  unfold em_within. destruct (within_spec X HT (@cc_eq CC) m o (so R) (so Ro)) as (b & E & H). exists b. split; [exact E|]. rewrite H. split.
  - intros Q x v Ev. destruct (Q x v Ev) as (w & Ew & Eq). apply Hco in Eq. congruence.
  - intros Q x v Ev. exists v. split; [apply Q; exact Ev|]. apply Hco. reflexivity.
Qed.
Lemma top_inclusion (co : V -> V -> incl) (Q : V -> V -> Prop) : (forall v w, (fst (co v w) = true <-> Q v w) /\ (snd (co v w) = true <-> Q w v)) ->
  exists r, e_inclusion_compare X (Some co) m o = Ok r /\
    (fst r = true <-> forall x v, eat m x = Some v -> exists w, eat o x = Some w /\ Q v w) /\
    (snd r = true <-> forall x w, eat o x = Some w -> exists v, eat m x = Some v /\ Q w v).
Proof.
  intros Hc. destruct (inclusion_spec X HT (Some co) Q (fun v w => Q w v)) with (left := m) (right := o) as (r & E & H1 & H2); [exact Hc|exact (so R)|exact (so Ro)|].
  exists r. split; [exact E|]. rewrite H1, H2. unfold lin, rin. split; (split; [intros H x v Ev|intros H [x v] Hn]).
  - apply (in_at X HT CC) in Ev; [|exact (so R)]. exact (H (x, v) Ev).
  - apply (in_at X HT CC) in Hn; [|exact (so R)]. exact (H x v Hn).
  - apply (in_at X HT CC) in Ev; [|exact (so Ro)]. exact (H (x, v) Ev).
  - apply (in_at X HT CC) in Hn; [|exact (so Ro)]. exact (H x v Hn).
Qed.
Lemma top_intersects_map : exists b, em_intersects_map X M m o = Ok b /\ (b = true <-> mp_total p = true \/ exists x, eat m x <> None /\ eat o x <> None).
Proof.
  unfold em_intersects_map. cbn [mt_total mt]. destruct (mp_total p); [exists true; split; [reflexivity|tauto]|].
  destruct (ElemQuery.intersects_spec X HT m o (so R) (so Ro)) as (b & E & H). exists b. split; [exact E|]. rewrite H. split.
  - intros (x & H1 & H2). right. exists x. rewrite !(eat_some_key X HT). auto.
  - intros [?|(x & H1 & H2)]; [discriminate|]. exists x. rewrite <- !(eat_some_key X HT). auto.
Qed.
End Two.

Section WithSet.
Context (m : emap) (s : list (K * unit)) (R : ereach m) (Rs : sreach X s).
Lemma top_erase_set : exists m', em_erase_set X M m s = Ok m' /\ echanged X m m' (has_elem X s) (fun _ => None).
Proof. destruct (erase_set_upd X HT CC p m s (so R) (sreach_sorted X HT s Rs)) as (m' & E & _ & C). eauto. Qed.
Lemma top_subtract_set : exists m', em_subtract_set X M m s = Ok m' /\ echanged X m m' (has_elem X s) (fun _ => None).
Proof. destruct (subtract_set_upd X HT CC p m s (so R) (sreach_sorted X HT s Rs)) as (m' & E & _ & C). eauto. Qed.
Lemma top_and_set : exists m', em_and_set X M m s = Ok m' /\
  forall x, (has_elem X s x -> eat m' x = copy_val CC p (eat m x)) /\ (~ has_elem X s x -> eat m' x = None).
Proof.
  destruct (isec_set_at X HT CC p [] m s ltac:(constructor) (so R) (sreach_sorted X HT s Rs)) as (m' & E & _ & C). exists m'. split; [exact E|].
  intros x. rewrite C, (unit_at X HT). destruct (in_dec _ _ _) as [I|I]; split; intros H; try contradiction; [|reflexivity].
  unfold copy_val. destruct (eat m x); reflexivity.
Qed.
Lemma top_intersects_set : exists b, em_intersects_set X M m s = Ok b /\ (b = true <-> mp_total p = true \/ exists x, eat m x <> None /\ has_elem X s x).
Proof.
  unfold em_intersects_set. cbn [mt_total mt]. destruct (mp_total p); [exists true; split; [reflexivity|tauto]|].
  destruct (ElemQuery.intersects_spec X HT m s (so R) (sreach_sorted X HT s Rs)) as (b & E & H). exists b. split; [exact E|]. rewrite H. split.
  - intros (x & H1 & H2). right. exists x. rewrite (eat_some_key X HT). auto.
  - intros [?|(x & H1 & H2)]; [discriminate|]. exists x. rewrite <- (eat_some_key X HT). auto.
Qed.
Lemma top_domain : (forall x, has_elem X (em_domain X M s m) x <-> has_elem X s x \/ eat m x <> None).
Proof. apply (domain_ok X HT CC p). exact (sreach_sorted X HT s Rs). Qed.
End WithSet.

Lemma top_less : co_order CC -> let f := em_ltb X M in
  (forall m, f m m = false) /\ (forall a b c, f a b = true -> f b c = true -> f a c = true) /\
  (forall a b, em_eqb X M a b = true <-> f a b = false /\ f b a = false).
Proof.
  intros H f. destruct (em_ltb_order X HT CC p H) as (I & T & C). split; [exact I|]. split; [exact T|]. intros a b.
  unfold em_eqb. rewrite (ElemQuery.eqb_spec X HT (@cc_eq CC)) by (intros v w; apply Hco). split; [intros ->; split; apply I|]. intros [H1 H2].
  destruct (C a b) as [Q|[Q|Q]]; [exact Q|unfold f in H1; congruence|unfold f in H2; congruence].
Qed.
Lemma top_add_if_endless (pr : K -> V -> bool) (m src : emap) : ereach m -> (exists x v, In (x, v) src /\ pr x v = false) ->
  forall fuel, em_add_if X M fuel pr m src = Err Fuel.
Proof.
  intros R (x & v & I & H). pose proof (so R) as S. clear R. revert m S I. induction src as [|n src IH]; intros m S I fuel; [destruct I|].
  destruct (pr (fst n) (snd n)) eqn:E; [|apply add_if_stuck; exact E]. destruct I as [->|I]; [cbn [fst snd] in E; congruence|].
  destruct fuel as [|fuel]; [reflexivity|]. cbn [em_add_if]. cbn [mt_co mt] in *. rewrite E.
  destruct (add_upd X HT CC p (codomain_combine M) m (fst n) (snd n) S) as (m' & E' & U). unfold em_add. rewrite E'. cbn [bind]. apply IH; [apply U|exact I].
Qed.
End Maps.

(* ------------------------------------------------------------------------ laws *)
Section Laws.
Context (CC : codomain) (Hco : eq_ok CC) (p : mpar) (P : proper CC p) (Hm : cmonoid CC (mp_combine p)).
Notation V := (C CC).
Notation M := (mt CC p).
Notation ereach := (ereach X CC p false).
Notation eat := (eat X).
Notation good m := (forall x, good_at CC p (eat m x)).
Lemma good_reach m : ereach m -> good m.
Proof. intros R x Ea. exact (ereach_clean X HT CC Hco p Ea P m R x). Qed.
Lemma same_map l r : ereach l -> ereach r -> (forall x, eat l x = eat r x) -> l = r.
Proof. intros R1 R2. apply (eat_ext X HT); apply (ereach_sorted X HT CC Hco p false); assumption. Qed.
Lemma sum_is a b : ereach a -> ereach b -> exists r, em_add_map X M a b = Ok r /\ ereach r /\ forall x, eat r x = padd CC p (eat a x) (eat b x).
Proof.
  intros Ra Rb. destruct (top_add_map CC Hco p false a b Ra Rb P) as (r & E & C). exists r. split; [exact E|]. split; [eapply E_add_map; [exact Ra|exact Rb|exact E]|].
  intros x. rewrite C. unfold padd. destruct (eat b x); reflexivity.
Qed.
Lemma top_comm a b : ereach a -> ereach b -> exists r, em_add_map X M a b = Ok r /\ em_add_map X M b a = Ok r.
Proof.
  intros Ra Rb. destruct (sum_is a b Ra Rb) as (r & E & Rr & C). destruct (sum_is b a Rb Ra) as (r' & E' & Rr' & C').
  exists r. split; [exact E|]. rewrite E'. f_equal. apply same_map; [exact Rr'|exact Rr|]. intros x. rewrite C, C'.
  apply (padd_comm CC Hco p); [exact Hm|apply good_reach; exact Rb|apply good_reach; exact Ra].
Qed.
Lemma top_assoc a b c : ereach a -> ereach b -> ereach c ->
  exists ab bc r, em_add_map X M a b = Ok ab /\ em_add_map X M b c = Ok bc /\ em_add_map X M ab c = Ok r /\ em_add_map X M a bc = Ok r.
Proof.
  intros Ra Rb Rc. destruct (sum_is a b Ra Rb) as (ab & E1 & R1 & C1). destruct (sum_is b c Rb Rc) as (bc & E2 & R2 & C2).
  destruct (sum_is ab c R1 Rc) as (r & E3 & R3 & C3). destruct (sum_is a bc Ra R2) as (r' & E4 & R4 & C4). exists ab, bc, r.
  split; [exact E1|]. split; [exact E2|]. split; [exact E3|]. rewrite E4. f_equal. apply same_map; [exact R4|exact R3|]. intros x. rewrite C4, C3, C2, C1. symmetry.
  apply (padd_assoc CC Hco p); [exact Hm|apply good_reach; assumption..].
Qed.
Lemma top_unit a : ereach a -> em_add_map X M a [] = Ok a /\ em_add_map X M [] a = Ok a.
Proof.
  intros Ra. split; [reflexivity|]. destruct (top_comm a [] Ra) as (r & E1 & E2); [constructor|]. cbn in E1. injection E1 as ->. exact E2.
Qed.
Lemma top_minus_self a : (forall v : V, combine CC (inverse CC (mp_combine p)) v v = cc_zero) -> mp_absorbs p = true -> ereach a -> em_subtract_map X M a a = Ok [].
Proof.
  intros H Ea Ra. destruct (top_subtract_map CC Hco p false a a Ra Ra) as (r & E & C). rewrite E. f_equal. apply same_map; [eapply E_subtract_map; [exact Ra|exact Ra|exact E]|constructor|].
  intros x. rewrite C. cbn [ElemSpec.eat find]. pose proof (good_reach a Ra x Ea) as G. destruct (eat a x) as [v|]; [|reflexivity].
  unfold esub_val, plus_val, store, absorbed. rewrite Ea. cbn [andb]. rewrite H, (cc_refl CC Hco).
  destruct (mp_total p && cc_invertible CC); [|reflexivity]. destruct (cc_eq v cc_zero) eqn:Z; [apply Hco in Z; congruence|reflexivity].
Qed.
Lemma top_group a b : cgroup CC (mp_combine p) -> mp_absorbs p = true -> mp_total p = true -> cc_invertible CC = true -> ereach a -> ereach b ->
  (exists s, em_add_map X M a b = Ok s /\ em_subtract_map X M s b = Ok a) /\ (exists d, em_subtract_map X M a b = Ok d /\ em_add_map X M d b = Ok a).
Proof.
  intros Hg Ea Et Ei Ra Rb. assert (Q : forall o o', match o' with Some v => esub_val CC p v o | None => o end = psub CC p o o').
  { intros o o'. unfold psub. destruct o' as [v|]; [|reflexivity]. unfold esub_val, sub_val. rewrite Et, Ei. reflexivity. }
  split.
  - destruct (sum_is a b Ra Rb) as (s & E & Rs & C). exists s. split; [exact E|]. destruct (top_subtract_map CC Hco p false s b Rs Rb) as (r & E' & C'). rewrite E'. f_equal.
    apply same_map; [eapply E_subtract_map; [exact Rs|exact Rb|exact E']|exact Ra|]. intros x. rewrite C', Q, C. apply (padd_psub CC Hco p Hm Hg Ea Et Ei); apply good_reach; assumption.
  - destruct (top_subtract_map CC Hco p false a b Ra Rb) as (d & E & C). exists d. split; [exact E|].
    assert (Rd : ereach d) by (eapply E_subtract_map; [exact Ra|exact Rb|exact E]). destruct (sum_is d b Rd Rb) as (r & E' & Rr & C'). rewrite E'. f_equal.
    apply same_map; [exact Rr|exact Ra|]. intros x. rewrite C', C, Q. apply (psub_padd CC Hco p Hm Hg Ea Et Ei); apply good_reach; assumption.
Qed.
End Laws.
End Elem.

(* ------------------------------------------------------ queries of both kinds of containers *)
Section Agree.
Context (X : dom) (k : kind) (HX : dom_ok X k) (CC : codomain) (Hco : eq_ok CC) (p : mpar).
Notation HT := (total_order X k HX).
Notation M := (mt CC p).
Notation at_ := (at_ X k CC).
Context (st : mstyle) (t : tree (D X) (C CC)) (m : list (D X * C CC)) (Rt : mreach X k CC (restyle p st) t) (Rm : ereach X CC p false m)
  (A : agrees X k CC t m).
Notation MI := (mt CC (restyle p st)).
Lemma agree_lookup x : has_room X k x -> exists v, m_lookup X k MI t x = Ok v /\ em_lookup X M m x = Ok v.
Proof. intros H. eexists. split; [apply (thm_lookup X k HX CC Hco (restyle p st) t Rt x H)|]. rewrite (A x). apply (top_lookup X HT CC Hco p false m Rm). Qed.
Lemma agree_contains_pair x v : has_room X k x -> exists b, m_contains_pair X k MI t x v = Ok b /\ em_contains_pair X M m x v = Ok b.
Proof.
  intros H. destruct (thm_contains_pair X k HX CC Hco (restyle p st) t Rt x v H) as (b & E & Q).
  destruct (top_contains_pair X HT CC Hco p false m Rm x v) as (b' & E' & Q'). exists b. split; [exact E|]. rewrite E'. f_equal. rewrite (A x) in Q.
  destruct b, b'; intuition congruence.
Qed.
Lemma agree_contains x : mp_total p = false -> has_room X k x -> m_contains_key X k MI t x = Ok (e_contains_key X m x).
Proof.
  intros T H. destruct (thm_contains_key X k HX CC Hco (restyle p st) t Rt x H) as (b & E & Q). rewrite E. f_equal.
  pose proof (top_contains_key X HT CC Hco p false m Rm x) as Q'. rewrite (A x) in Q. cbn [mp_total restyle] in Q. rewrite T in Q.
  destruct b, (e_contains_key X m x); intuition congruence.
Qed.
Lemma agree_size' phi sub : integral X phi sub -> disc X = true -> headroom X k t -> c_cardinality X k sub t = Fin (Z.of_nat (e_size X m)).
Proof.
  intros Hi Hd Hr. apply (agree_size X k HX CC Hco t m phi sub Hi Hd (restyle p st) Rt Hr); [|exact A]. apply (ereach_sorted X HT CC Hco p false). exact Rm.
Qed.
Lemma agree_equal st' t' m' : mreach X k CC (restyle p st') t' -> ereach X CC p false m' -> agrees X k CC t' m' ->
  m_element_equal X k MI (co_atomic MI) t t' = Ok (em_eqb X M m m').
Proof.
  intros Rt' Rm' A'. destruct (thm_melement_equal X k HX CC Hco (restyle p st) (restyle p st') t t' Rt Rt') as (b & E & Q). rewrite E. f_equal.
  pose proof (top_eqb X HT CC Hco p false m m' Rm Rm') as Q'. assert (W : (forall x, at_ t x = at_ t' x) <-> forall x, eat X m x = eat X m' x).
  { split; intros H x; [rewrite <- (A x), <- (A' x)|rewrite (A x), (A' x)]; apply H. }
  rewrite W in Q. destruct b, (em_eqb X M m m'); intuition congruence.
Qed.
Lemma agree_domain st' : exists s, m_domain X k MI st' t = Ok s /\ reach X k st' s /\ sagrees X k s (em_domain X M [] m).
Proof.
  destruct (thm_mdomain X k HX CC (restyle p st) t st') as (s & E & R & C). exists s. split; [exact E|]. split; [exact R|]. intros x. rewrite C, (A x).
  pose proof (top_domain X HT CC p m [] ltac:(constructor) x) as Q. rewrite Q. split; [intros H; right; exact H|intros [[]|H]; exact H].
Qed.
End Agree.
