(** Interval maps agree with icl::maps. *)
From Verif Require Import ElemSpec ElemFacts ElemOps ElemQuery ElemThms ElemThms2 ElemRefine.
From Verif Require Import SetProps SetThms MapReach MapThms MapThms2 MapThms3 MapThms4.
From Coq Require Import Sorted.

Section Maps.
Context (X : dom) (k : kind) (HX : dom_ok X k) (CC : codomain) (Hco : eq_ok CC) (p : mpar).
Notation K := (D X).
Notation V := (C CC).
Notation mem := (mem X k).
Notation HT := (total_order X k HX).
Notation imap := (tree K V).
Notation emap := (list (K * V)).
Notation at_ := (at_ X k CC).
Notation eat := (eat X).
Notation sorted := (esorted X).
Notation agrees := (agrees X k CC).
Notation M := (mt CC p).
Notation upd1 := (upd1 X).

Lemma agree_changed (t t' : imap) (m m' : emap) a e g (g' : K -> option V -> option V) :
  agrees t m -> enumerates X (mem a) e -> changed X k CC t t' (mem a) g ->
  (forall x, (In x e -> eat m' x = g' x (eat m x)) /\ (~ In x e -> eat m' x = eat m x)) ->
  (forall x, In x e -> g (at_ t x) = g' x (eat m x)) -> agrees t' m'.
Proof.
  intros A [N E] C C' G x. destruct (C x) as [C1 C2], (C' x) as [D1 D2]. destruct (in_dec (el_dec X HT) x e) as [I|I].
  - rewrite C1 by (apply E; exact I). rewrite D1 by exact I. apply G. exact I.
  - rewrite C2 by (rewrite <- E; exact I). rewrite D2 by exact I. apply A.
Qed.
Lemma agree_combined (t o t' : imap) (m mo m' : emap) g g' :
  agrees t m -> agrees o mo -> combined X k CC t o t' g -> ecombined X m mo m' g' ->
  (forall x v, at_ o x = Some v -> g v (at_ t x) = g' v (at_ t x)) -> agrees t' m'.
Proof.
  intros A Ao C C' G x. rewrite C, C', <- (Ao x), <- (A x). destruct (at_ o x) eqn:E; [|reflexivity]. apply G. exact E.
Qed.

Lemma flip_each_enricher v e : mp_total p = true -> mp_absorbs p = false -> forall m : emap, sorted m ->
  exists m', each X (fun m x => em_flip X M m x v) m e = Ok m' /\ sorted m' /\
    (forall x, eat m' x <> None <-> In x e \/ eat m x <> None) /\ (e <> [] -> forall x w, eat m' x = Some w -> w = cc_zero).
Proof.
  intros T Ea. unfold each. induction e as [|y e IH]; intros m S; cbn [foldM].
  - exists m. split; [reflexivity|]. split; [exact S|]. split; [intros x; cbn; tauto|congruence].
  - destruct (flip_total_enricher X HT CC p m y v T Ea S) as (m1 & E1 & S1 & A1). rewrite E1. cbn [bind].
    destruct (IH m1 S1) as (m2 & E2 & S2 & A2 & Z2). exists m2. split; [exact E2|]. split; [exact S2|]. split.
    + intros x. rewrite A2, A1, !(eat_some_key X HT). cbn [In map]. destruct (in_dec _ _ _) as [I|I]; cbn [In] in I.
      * split; [intros _; tauto|intros _; right; discriminate].
      * split; [intros [?|Q]; [tauto|exfalso; apply Q; reflexivity]|tauto].
    + intros _ x w Ew. destruct e as [|z e']; [|apply (Z2 ltac:(discriminate) x w Ew)]. cbn [foldM] in E2. injection E2 as <-.
      cbn [mt_co mt] in *. rewrite A1 in Ew. destruct (in_dec _ _ _); congruence.
Qed.

Section One.
Context (st : mstyle) (t : imap) (m : emap) (R : mreach X k CC (restyle p st) t) (S : sorted m) (A : agrees t m).
Context (a : itv K) (e : list K) (En : enumerates X (mem a) e).
Notation MI := (mt CC (restyle p st)).

Lemma zero_kept v : proper CC p -> absorbed CC p v = true -> forall x w, at_ t x = Some w -> v = cc_zero /\ store CC p w = Some w.
Proof.
  intros P Ab x w E. unfold absorbed in Ab. apply andb_true_iff in Ab. destruct Ab as [Ea Ez]. apply Hco in Ez. split; [exact Ez|].
  unfold store, absorbed. rewrite Ea. cbn [andb]. destruct (cc_eq w cc_zero) eqn:Z; [|reflexivity]. apply Hco in Z. exfalso.
  apply (at_nz X k HX CC Hco (restyle p st) t x R P Ea). congruence.
Qed.
Lemma esub_eq v o : (absorbed CC p v = true -> forall w, o = Some w -> store CC p (combine CC (inverse CC (mp_combine p)) w v) = Some w) ->
  sub_val CC p v o = esub_val CC p v o.
Proof.
  intros H. unfold sub_val, esub_val. destruct (mp_total p && cc_invertible CC); [reflexivity|]. destruct (absorbed CC p v) eqn:E; [|reflexivity].
  destruct o as [w|]; [|reflexivity]. symmetry. apply H; reflexivity.
Qed.
Lemma eflip_eq v o : (absorbed CC p v = true -> o = None) ->
  (cc_set_sem CC = true -> forall v w : CC, combine CC (inverse CC (section CC p)) v w = combine CC (inverse CC (section CC p)) w v) ->
  flip_plain CC p v o = eflip_val CC p v o.
Proof.
  intros H C. unfold flip_plain, eflip_val. destruct o as [w|]; [|reflexivity]. destruct (absorbed CC p v) eqn:E; [specialize (H eq_refl); discriminate|].
  destruct (cc_set_sem CC); [rewrite C by reflexivity|]; reflexivity.
Qed.

Lemma mref_add v : exists t' m', m_add X k MI t a v = Ok t' /\ each X (fun m x => em_add X M m x v) m e = Ok m' /\ agrees t' m'.
Proof.
  destruct (thm_madd X k HX CC Hco (restyle p st) t R a v) as (t' & E & C).
  destruct (each_upd X (fun m x => em_add X M m x v) (fun _ => add_val CC p v) e) with (m := m) as (m' & E' & _ & C'); [|apply En|exact S|].
  { intros m0 x S0. apply (add_upd X HT CC p (codomain_combine M)). exact S0. }
  exists t', m'. split; [exact E|]. split; [exact E'|]. refine (agree_changed t t' m _ a e _ (fun _ => add_val CC p v) A En C C' _). intros x _. rewrite (A x). reflexivity.
Qed.
Lemma mref_subtract v : proper CC p -> (absorbed CC p v = false \/ forall w : CC, combine CC (inverse CC (mp_combine p)) w cc_zero = w) ->
  exists t' m', m_subtract X k MI t a v = Ok t' /\ each X (fun m x => em_subtract X M m x v) m e = Ok m' /\ agrees t' m'.
Proof.
  intros P H. destruct (thm_msub X k HX CC Hco (restyle p st) t R a v) as (t' & E & C).
  destruct (each_upd X (fun m x => em_subtract X M m x v) (fun _ => esub_val CC p v) e) with (m := m) as (m' & E' & _ & C'); [|apply En|exact S|].
  { intros m0 x S0. apply (subtract_upd X HT CC p). exact S0. }
  exists t', m'. split; [exact E|]. split; [exact E'|]. refine (agree_changed t t' m _ a e _ (fun _ => esub_val CC p v) A En C C' _). intros x _. rewrite <- (A x). change (sub_val CC (restyle p st)) with (sub_val CC p).
  apply esub_eq. intros Ab w Ew. destruct H as [H|H]; [congruence|]. destruct (zero_kept v P Ab x w Ew) as [-> Sw]. rewrite H. exact Sw.
Qed.
Lemma mref_insert v : exists t', m_insert X k MI t a v = Ok t' /\ agrees t' (fold_left (fun m x => fst (fst (em_insert X M m x v))) e m).
Proof.
  destruct (thm_mins X k HX CC Hco (restyle p st) t R a v) as (t' & E & C).
  destruct (each_upd X (fun m x => Ok (fst (fst (em_insert X M m x v)))) (fun _ => ins_val CC p v) e) with (m := m) as (m' & E' & _ & C'); [|apply En|exact S|].
  { intros m0 x S0. eexists. split; [reflexivity|]. apply (minsert_upd X HT CC p). exact S0. }
  rewrite each_pure in E'. injection E' as <-. exists t'. split; [exact E|]. refine (agree_changed t t' m _ a e _ (fun _ => ins_val CC p v) A En C C' _). intros x _. rewrite (A x). reflexivity.
Qed.
Lemma mref_erase : exists t' m', m_erase X k MI t a = Ok t' /\ each X (fun m x => ' (m, _) <- e_erase_key X m x ;; Ok m) m e = Ok m' /\ agrees t' m'.
Proof.
  destruct (thm_merase X k HX CC Hco (restyle p st) t R a) as (t' & E & C).
  destruct (each_upd X (fun (m : emap) x => ' (m, _) <- e_erase_key X m x ;; Ok m) (fun _ _ => None) e) with (m := m) as (m' & E' & _ & C'); [|apply En|exact S|].
  { intros m0 x S0. destruct (erase_key_upd X HT m0 x S0) as (m1 & c & E1 & U & _). rewrite E1. cbn [bind]. eauto. }
  exists t', m'. split; [exact E|]. split; [exact E'|]. refine (agree_changed t t' m _ a e _ (fun _ _ => None) A En C C' _). reflexivity.
Qed.
Lemma mref_erase_seg v : proper CC p -> exists t' m', m_erase_seg X k MI t a v = Ok t' /\
  each X (fun m x => ' (m, _) <- em_erase_pair X M m x v ;; Ok m) m e = Ok m' /\ agrees t' m'.
Proof.
  intros P. destruct (thm_merase_seg X k HX CC Hco (restyle p st) t R a v) as (t' & E & C); [right; exact P|].
  destruct (each_upd X (fun (m : emap) x => ' (m, _) <- em_erase_pair X M m x v ;; Ok m) (fun _ w => if absorbed CC p v then w else erase_val CC v w) e) with (m := m) as (m' & E' & _ & C'); [|apply En|exact S|].
  { intros m0 x S0. destruct (erase_pair_upd X HT CC Hco p m0 x v S0) as (m1 & c & E1 & U & _). rewrite E1. cbn [bind]. eauto. }
  exists t', m'. split; [exact E|]. split; [exact E'|]. refine (agree_changed t t' m _ a e _ (fun _ w => if absorbed CC p v then w else erase_val CC v w) A En C C' _). intros x _. rewrite <- (A x). cbn beta.
  destruct (absorbed CC p v) eqn:Ab; [|reflexivity]. unfold erase_val. destruct (at_ t x) as [w|] eqn:Ew; [|reflexivity].
  destruct (zero_kept v P Ab x w Ew) as [-> Sw]. unfold absorbed in Ab. apply andb_true_iff in Ab. destruct Ab as [Ea _].
  unfold store, absorbed in Sw. rewrite Ea in Sw. cbn [andb] in Sw. destruct (cc_eq w cc_zero); [discriminate|reflexivity].
Qed.
Lemma mref_flip v : mirrored CC p -> e <> [] -> absorbed CC p v = false ->
  exists t' m', m_flip_seg X k MI t a v = Ok t' /\ each X (fun m x => em_flip X M m x v) m e = Ok m' /\ agrees t' m'.
Proof.
  intros (P & Hf & _ & Hs) Ne Ab. assert (Na : exists x, mem a x). { destruct e as [|y e']; [congruence|]. exists y. apply En. left. reflexivity. }
  destruct (mp_total p) eqn:T; [destruct (mp_absorbs p) eqn:Ea|].
  - destruct (thm_mflip_absorber X k HX CC Hco (restyle p st) t R a v T Ea) as (t' & E & C). exists t', []. split; [exact E|]. split.
    + destruct e as [|y e']; [congruence|]. unfold each. cbn [foldM]. rewrite (flip_total_absorber X CC p m y v T Ea). cbn [bind]. clear - T Ea.
      induction e' as [|z e' IH]; [reflexivity|]. cbn [foldM]. rewrite (flip_total_absorber X CC p [] z v T Ea). cbn [bind]. exact IH.
    + intros x. unfold MapSpec.at_. rewrite C. reflexivity.
  - destruct (thm_mflip_enricher X k HX CC Hco (restyle p st) t R a v T Ea) as (t' & E & C).
    destruct (flip_each_enricher v e T Ea m S) as (m' & E' & S' & A' & Z'). exists t', m'. split; [exact E|]. split; [exact E'|]. intros x. rewrite C.
    specialize (A' x). specialize (Z' Ne x). destruct En as [_ En']. specialize (En' x). rewrite <- (A x) in A'.
    assert (Mb : memb X k a x = true <-> mem a x) by (apply memb_mem; assumption).
    cbn [mt_co mt] in *. destruct (eat m' x) as [w|].
    + rewrite (Z' w eq_refl). destruct (at_ t x); [reflexivity|]. destruct (memb X k a x); [reflexivity|]. exfalso.
      destruct (proj1 A' ltac:(discriminate)) as [H|H]; [|congruence]. apply En', Mb in H. discriminate.
    + destruct (at_ t x); [exfalso; apply (proj2 A'); [right; discriminate|reflexivity]|].
      destruct (memb X k a x); [|reflexivity]. exfalso. apply (proj2 A'); [|reflexivity]. left. apply En', Mb. reflexivity.
  - destruct (thm_mflip X k HX CC Hco (restyle p st) t R a v T P Na) as (t' & E & C).
    destruct (each_upd X (fun m x => em_flip X M m x v) (fun _ => eflip_val CC p v) e) with (m := m) as (m' & E' & _ & C'); [|apply En|exact S|].
    { intros m0 x S0. apply (flip_upd X HT CC Hco p); auto. }
    exists t', m'. split; [exact E|]. split; [exact E'|]. refine (agree_changed t t' m _ a e _ (fun _ => eflip_val CC p v) A En C C' _). intros x _. rewrite <- (A x).
    rewrite flip_plain_eq by exact Hf. apply eflip_eq; [congruence|exact Hs].
Qed.
Lemma mref_and v : mp_total p = false -> exists t' m', m_and_seg X k MI t a v = Ok t' /\
  each X (fun s x => em_add_intersection_pair X M s m x v) [] e = Ok m' /\ agrees t' m'.
Proof.
  intros T. destruct (thm_mand_seg X k HX CC Hco (restyle p st) t R a v T) as (t' & E & C).
  destruct (each_upd X (fun s x => em_add_intersection_pair X M s m x v)
    (fun x s => match eat m x with Some w => plus_val CC p (section CC p) v (add_val CC p w s) | None => s end) e) with (m := @nil (K * V)) as (m' & E' & _ & C'); [|apply En|constructor|].
  { intros m0 x S0. apply (isec_pair_upd X HT CC p); auto. }
  exists t', m'. split; [exact E|]. split; [exact E'|]. intros x. destruct (C x) as [C1 C2], (C' x) as [D1 D2]. cbn [mt_co mt] in *. destruct En as [_ En']. destruct (in_dec (el_dec X HT) x e) as [I|I].
  - rewrite C1 by (apply En'; exact I). rewrite D1 by exact I. rewrite (A x). unfold and_val. destruct (eat m x); reflexivity.
  - rewrite C2 by (rewrite <- En'; exact I). rewrite D2 by exact I. reflexivity.
Qed.
Lemma mref_restrict : proper CC p -> exists t' m', m_and_itv X k MI t a = Ok t' /\
  each X (fun s x => em_add_intersection_key X M s m x) [] e = Ok m' /\ agrees t' m'.
Proof.
  intros P. destruct (thm_mand_itv X k HX CC Hco (restyle p st) t R a P) as (t' & E & C).
  destruct (each_upd X (fun s x => em_add_intersection_key X M s m x)
    (fun x s => match eat m x with Some w => add_val CC p w s | None => s end) e) with (m := @nil (K * V)) as (m' & E' & _ & C'); [|apply En|constructor|].
  { intros m0 x S0. apply (isec_key_upd X HT CC p); auto. }
  exists t', m'. split; [exact E|]. split; [exact E'|]. intros x. destruct (C x) as [C1 C2], (C' x) as [D1 D2]. cbn [mt_co mt] in *. destruct En as [_ En']. destruct (in_dec (el_dec X HT) x e) as [I|I].
  - rewrite C1 by (apply En'; exact I). rewrite D1 by exact I. rewrite (A x). unfold copy_val. destruct (eat m x); reflexivity.
  - rewrite C2 by (rewrite <- En'; exact I). rewrite D2 by exact I. reflexivity.
Qed.
End One.

Section Whole.
Context (st st' : mstyle) (t o : imap) (m mo : emap) (R : mreach X k CC (restyle p st) t) (Ro : mreach X k CC (restyle p st') o)
  (S : sorted m) (So : sorted mo) (A : agrees t m) (Ao : agrees o mo).
Notation MI := (mt CC (restyle p st)).
Notation ND := (sorted_nodup X HT mo So).

Lemma mref_add_map : proper CC p -> exists t' m', m_add_map X k MI t o = Ok t' /\ em_add_map X M m mo = Ok m' /\ agrees t' m'.
Proof.
  intros P. destruct (thm_madd_map X k HX CC Hco (restyle p st) (restyle p st') t o R Ro P) as (t' & E & C).
  destruct (add_map_upd X HT CC p m mo S ND) as (m' & E' & _ & C'). exists t', m'. split; [exact E|]. split; [exact E'|].
  refine (agree_combined t o t' m mo _ _ _ A Ao C C' _). intros x v _. symmetry. apply (hint_plus CC Hco p); apply P.
Qed.
Lemma mref_subtract_map : mirrored CC p -> exists t' m', m_subtract_map X k MI t o = Ok t' /\ em_subtract_map X M m mo = Ok m' /\ agrees t' m'.
Proof.
  intros (P & _ & H & _). destruct (thm_msub_map X k HX CC Hco (restyle p st) (restyle p st') t o R Ro) as (t' & E & C).
  destruct (subtract_map_upd X HT CC p m mo S ND) as (m' & E' & _ & C'). exists t', m'. split; [exact E|]. split; [exact E'|].
  refine (agree_combined t o t' m mo _ _ _ A Ao C C' _). intros x v _. change (sub_val CC (restyle p st)) with (sub_val CC p). apply esub_eq. intros Ab w Ew.
  destruct (zero_kept st t R v P Ab x w Ew) as [-> Sw]. rewrite H. exact Sw.
Qed.
Lemma mref_insert_map : exists t', m_insert_map X k MI t o = Ok t' /\ agrees t' (em_insert_map X M m mo).
Proof.
  destruct (thm_mins_map X k HX CC Hco (restyle p st) (restyle p st') t o R Ro) as (t' & E & C).
  destruct (insert_map_upd X HT CC p m mo S ND) as (_ & C'). exists t'. split; [exact E|]. refine (agree_combined t o t' m mo _ _ _ A Ao C C' _). reflexivity.
Qed.
Lemma mref_erase_map : proper CC p -> exists t' m', m_erase_map X k MI t o = Ok t' /\ em_erase_map X M m mo = Ok m' /\ agrees t' m'.
Proof.
  intros P. destruct (thm_merase_map X k HX CC Hco (restyle p st) (restyle p st') t o R Ro) as (t' & E & C); [right; exact P|].
  destruct (erase_map_upd X HT CC Hco p m mo S ND) as (m' & E' & _ & C'). exists t', m'. split; [exact E|]. split; [exact E'|].
  refine (agree_combined t o t' m mo _ _ _ A Ao C C' _). intros x v _. cbn beta. destruct (absorbed CC p v) eqn:Ab; [|reflexivity]. unfold erase_val. destruct (at_ t x) as [w|] eqn:Ew; [|reflexivity].
  destruct (zero_kept st t R v P Ab x w Ew) as [-> Sw]. unfold absorbed in Ab. apply andb_true_iff in Ab. destruct Ab as [Ea _].
  unfold store, absorbed in Sw. rewrite Ea in Sw. cbn [andb] in Sw. destruct (cc_eq w cc_zero); [discriminate|reflexivity].
Qed.
Lemma mref_and_map : mirrored CC p -> exists t' m', m_and_map X k MI t o = Ok t' /\ em_and_map X M m mo = Ok m' /\ agrees t' m'.
Proof.
  intros (P & Hf & _). unfold em_and_map. cbn [mt_total mt]. destruct (mp_total p) eqn:T.
  - destruct (thm_mand_map_total X k HX CC Hco (restyle p st) (restyle p st') t o R Ro T P) as (t' & E & C).
    destruct (add_map_upd X HT CC p m mo S ND) as (m' & E' & _ & C'). exists t', m'. split; [exact E|]. split; [exact E'|].
    intros x. rewrite C, C', <- (Ao x), <- (A x). rewrite (copy_plain X k HX CC Hco (restyle p st) t x Hf P R). destruct (at_ o x); [|reflexivity].
    symmetry. apply (hint_plus CC Hco p); apply P.
  - destruct (thm_mand_map X k HX CC Hco (restyle p st) (restyle p st') t o R Ro T) as (t' & E & C).
    destruct (isec_map_upd X HT CC p [] m mo T) as (m' & E' & _ & C'); [constructor|exact S|exact ND|]. exists t', m'. split; [exact E|]. split; [exact E'|].
    intros x. rewrite C, C', <- (Ao x), <- (A x). destruct (at_ o x); [|reflexivity]. unfold and_val. destruct (at_ t x); reflexivity.
Qed.
Lemma mref_flip_map : mirrored CC p -> exists t' m', m_flip_map X k MI t o = Ok t' /\ em_flip_map X M m mo = Ok m' /\ agrees t' m'.
Proof.
  intros (P & Hf & _ & Hs). destruct (mp_total p) eqn:T; [destruct (mp_absorbs p) eqn:Ea|].
  - destruct (thm_mflip_map_absorber X k HX CC Hco (restyle p st) (restyle p st') t o R Ro T Ea) as (t' & E & C). exists t', []. split; [exact E|].
    split; [apply (flip_map_total_absorber X CC p m mo T Ea)|]. intros x. unfold MapSpec.at_. rewrite C. reflexivity.
  - destruct (thm_mflip_map_enricher X k HX CC Hco (restyle p st) (restyle p st') t o R Ro T Ea P) as (t' & E & C).
    destruct (flip_map_total_enricher X HT CC p m mo T Ea S) as (m' & E' & _ & C'). exists t', m'. split; [exact E|]. split; [exact E'|].
    intros x. rewrite C, C', (A x), (Ao x). destruct (in_dec _ _ _) as [I|I]; rewrite in_app_iff, <- !(eat_some_key X HT) in I; cbn [mt_co mt] in *.
    + destruct (eat m x), (eat mo x); tauto || reflexivity.
    + destruct (eat m x), (eat mo x); auto; exfalso; apply I; [right|right|left]; discriminate.
  - destruct (thm_mflip_map X k HX CC Hco (restyle p st) (restyle p st') t o R Ro T P) as (t' & E & C).
    destruct (flip_map_upd X HT CC Hco p m mo T S ND) as (m' & E' & _ & C'). exists t', m'. split; [exact E|]. split; [exact E'|].
    refine (agree_combined t o t' m mo _ _ _ A Ao C C' _). intros x v Ev. rewrite flip_plain_eq by exact Hf. apply eflip_eq; [|exact Hs].
    intros Ab. destruct (zero_kept st' o Ro v P Ab x v Ev) as [-> Sv]. exfalso. unfold store in Sv. rewrite Ab in Sv. discriminate.
Qed.
End Whole.

Section WithSet.
Context (st : mstyle) (st' : style) (t : imap) (o : tree K unit) (m : emap) (so : list (K * unit)) (R : mreach X k CC (restyle p st) t) (Ro : reach X k st' o)
  (S : sorted m) (So : esorted X so) (A : agrees t m) (Ao : sagrees X k o so).
Notation MI := (mt CC (restyle p st)).
Lemma mref_erase_set : exists t' m', m_erase_set X k MI t o = Ok t' /\ em_erase_set X M m so = Ok m' /\ agrees t' m'.
Proof.
  destruct (thm_merase_set X k HX CC Hco (restyle p st) st' t o R Ro) as (t' & E & C).
  destruct (erase_set_upd X HT CC p m so S So) as (m' & E' & _ & C'). exists t', m'. split; [exact E|]. split; [exact E'|].
  intros x. destruct (C x) as [C1 C2], (C' x) as [D1 D2]. destruct (in_dec (el_dec X HT) x (map fst so)) as [I|I].
  - rewrite C1 by (apply Ao; exact I). rewrite D1 by exact I. reflexivity.
  - rewrite C2 by (rewrite (Ao x); exact I). rewrite D2 by exact I. apply A.
Qed.
Lemma mref_and_set : proper CC p -> exists t' m', m_and_set X k MI t o = Ok t' /\ em_and_set X M m so = Ok m' /\ agrees t' m'.
Proof.
  intros P. destruct (thm_mand_set X k HX CC Hco (restyle p st) st' t o R Ro P) as (t' & E & C).
  destruct (isec_set_at X HT CC p [] m so) as (m' & E' & _ & C'); [constructor|exact S|exact So|]. exists t', m'. split; [exact E|]. split; [exact E'|].
  intros x. destruct (C x) as [C1 C2]. rewrite C', (unit_at X HT). destruct (in_dec _ _ _) as [I|I].
  - rewrite C1 by (apply Ao; exact I). rewrite (A x). unfold copy_val. destruct (eat m x); reflexivity.
  - rewrite C2 by (rewrite (Ao x); exact I). reflexivity.
Qed.
End WithSet.

(* ------------------------------------------------------------------------ histories *)
Notation ereach := (ereach X CC p false).
Lemma each_reach (op : emap -> K -> res emap) e : (forall m x m', ereach m -> op m x = Ok m' -> ereach m') ->
  forall m m', ereach m -> each X op m e = Ok m' -> ereach m'.
Proof.
  intros H. unfold each. induction e as [|x e IH]; intros m m' R E; cbn in E; [congruence|]. destruct (op m x) as [m1|] eqn:E1; [|discriminate].
  cbn in E. eapply IH; [|exact E]. eapply H; eauto.
Qed.
Lemma and_reach p' t a v t' : mreach X k CC p' t -> m_and_seg X k (mt CC p') t a v = Ok t' -> mreach X k CC p' t'.
Proof. intros R E. unfold m_and_seg in E. exact (M_isec_seg X k CC p' t_empty t a v t' (M_clear X k CC p') R E). Qed.

Lemma mirror_ok st t m : mirrored CC p -> mirror X k CC p st t m -> mreach X k CC (restyle p st) t /\ ereach m /\ agrees t m.
Proof.
  intros Hm. assert (P : proper CC p) by apply Hm. pose proof (ereach_sorted X HT CC Hco p false) as SO.
  induction 1 as [st|st t m a v e t' m' H IH En Et Em|st t m a v e t' m' H IH En Et Em|st t m a v e t' H IH En Et|st t m a e t' m' H IH En Et Em
    |st t m a v e t' m' H IH En Et Em|st t m a v e t' m' H IH En Ne Ab Et Em|st t m a v e t' m' H IH En T Et Em|st t m a e t' m' H IH En Et Em
    |st st' t m o mo t' m' H IH Ho IHo Et Em|st st' t m o mo t' m' H IH Ho IHo Et Em|st st' t m o mo t' H IH Ho IHo Et|st st' t m o mo t' m' H IH Ho IHo Et Em
    |st st' t m o so t' m' H IH Ho Et Em|st st' t m o mo t' m' H IH Ho IHo Et Em|st st' t m o so t' m' H IH Ho Et Em|st st' t m o mo t' m' H IH Ho IHo Et Em].
  - split; [constructor|]. split; [constructor|]. intros x. reflexivity.
  - destruct IH as (R & Re & A). destruct (mref_add st t m R (SO _ Re) A a e En v) as (t1 & m1 & E1 & E2 & A'). rewrite E1 in Et. injection Et as <-. rewrite E2 in Em. injection Em as <-.
    split; [exact (M_add X k CC _ t a v _ R E1)|]. split; [|exact A']. eapply each_reach; [|exact Re|exact E2]. intros m0 x m2 R0 E0. cbn beta in E0. eapply E_add; [first [exact R0|exact Re]|..]; first [exact R0|exact Re|exact E0].
  - destruct IH as (R & Re & A). destruct (mref_subtract st t m R (SO _ Re) A a e En v) as (t1 & m1 & E1 & E2 & A'); [exact P|right; apply Hm|].
    rewrite E1 in Et. injection Et as <-. rewrite E2 in Em. injection Em as <-.
    split; [exact (M_subtract X k CC _ t a v _ R E1)|]. split; [|exact A']. eapply each_reach; [|exact Re|exact E2]. intros m0 x m2 R0 E0. cbn beta in E0. eapply E_subtract; [first [exact R0|exact Re]|..]; first [exact R0|exact Re|exact E0].
  - destruct IH as (R & Re & A). destruct (mref_insert st t m R (SO _ Re) A a e En v) as (t1 & E1 & A'). rewrite E1 in Et. injection Et as <-.
    split; [exact (M_insert X k CC _ t a v _ R E1)|]. split; [|exact A']. clear - Re. revert m Re. induction e as [|x e IH]; intros m Re; [exact Re|]. cbn. apply IH. apply E_insert. exact Re.
  - destruct IH as (R & Re & A). destruct (mref_erase st t m R (SO _ Re) A a e En) as (t1 & m1 & E1 & E2 & A').
    rewrite E1 in Et. injection Et as <-. rewrite E2 in Em. injection Em as <-.
    split; [exact (M_erase X k CC _ t a _ R E1)|]. split; [|exact A']. eapply each_reach; [|exact Re|exact E2]. intros m0 x m2 R0 E0.
    cbn beta in E0. destruct (e_erase_key X m0 x) as [[m3 c]|] eqn:E3; [|discriminate]. cbn in E0. injection E0 as <-. eapply E_erase_key; [exact R0|exact E3].
  - destruct IH as (R & Re & A). destruct (mref_erase_seg st t m R (SO _ Re) A a e En v P) as (t1 & m1 & E1 & E2 & A').
    rewrite E1 in Et. injection Et as <-. rewrite E2 in Em. injection Em as <-.
    split; [exact (M_erase_seg X k CC _ t a v _ R E1)|]. split; [|exact A']. eapply each_reach; [|exact Re|exact E2]. intros m0 x m2 R0 E0.
    cbn beta in E0. destruct (em_erase_pair X M m0 x v) as [[m3 c]|] eqn:E3; [|discriminate]. cbn in E0. injection E0 as <-. eapply E_erase_pair; [exact R0|exact E3].
  - destruct IH as (R & Re & A). destruct (mref_flip st t m R (SO _ Re) A a e En v Hm Ne Ab) as (t1 & m1 & E1 & E2 & A').
    rewrite E1 in Et. injection Et as <-. rewrite E2 in Em. injection Em as <-.
    split; [exact (M_flip X k CC _ t a v _ R E1)|]. split; [|exact A']. eapply each_reach; [|exact Re|exact E2]. intros m0 x m2 R0 E0. cbn beta in E0. eapply E_flip; [first [exact R0|exact Re]|..]; first [exact R0|exact Re|exact E0].
  - destruct IH as (R & Re & A). destruct (mref_and st t m R (SO _ Re) A a e En v T) as (t1 & m1 & E1 & E2 & A').
    rewrite E1 in Et. injection Et as <-. rewrite E2 in Em. injection Em as <-.
    split; [exact (and_reach _ t a v _ R E1)|]. split; [|exact A']. eapply each_reach; [|apply E_empty|exact E2]. intros m0 x m2 R0 E0. cbn beta in E0. exact (E_isec_pair X CC p false m0 m x v m2 R0 Re E0).
  - destruct IH as (R & Re & A). destruct (mref_restrict st t m R (SO _ Re) A a e En P) as (t1 & m1 & E1 & E2 & A').
    rewrite E1 in Et. injection Et as <-. rewrite E2 in Em. injection Em as <-.
    split; [exact (M_isec_itv X k CC _ t_empty t a _ (M_clear X k CC _) R E1)|]. split; [|exact A']. eapply each_reach; [|apply E_empty|exact E2]. intros m0 x m2 R0 E0. cbn beta in E0. exact (E_isec_key X CC p false m0 m x m2 R0 Re E0).
  - destruct IH as (R & Re & A), IHo as (Ro & Reo & Ao). destruct (mref_add_map st st' t o m mo R Ro (SO _ Re) (SO _ Reo) A Ao P) as (t1 & m1 & E1 & E2 & A').
    rewrite E1 in Et. injection Et as <-. rewrite E2 in Em. injection Em as <-.
    split; [exact (M_add_map X k CC _ _ t o _ R Ro E1)|]. split; [|exact A']. eapply E_add_map; [exact Re|exact Reo|exact E2].
  - destruct IH as (R & Re & A), IHo as (Ro & Reo & Ao). destruct (mref_subtract_map st st' t o m mo R Ro (SO _ Re) (SO _ Reo) A Ao Hm) as (t1 & m1 & E1 & E2 & A').
    rewrite E1 in Et. injection Et as <-. rewrite E2 in Em. injection Em as <-.
    split; [exact (M_subtract_map X k CC _ _ t o _ R Ro E1)|]. split; [|exact A']. eapply E_subtract_map; [exact Re|exact Reo|exact E2].
  - destruct IH as (R & Re & A), IHo as (Ro & Reo & Ao). destruct (mref_insert_map st st' t o m mo R Ro (SO _ Re) (SO _ Reo) A Ao) as (t1 & E1 & A').
    rewrite E1 in Et. injection Et as <-.
    split; [exact (M_insert_map X k CC _ _ t o _ R Ro E1)|]. split; [|exact A']. apply E_insert_map; assumption.
  - destruct IH as (R & Re & A), IHo as (Ro & Reo & Ao). destruct (mref_erase_map st st' t o m mo R Ro (SO _ Re) (SO _ Reo) A Ao P) as (t1 & m1 & E1 & E2 & A').
    rewrite E1 in Et. injection Et as <-. rewrite E2 in Em. injection Em as <-.
    split; [exact (M_erase_map X k CC _ _ t o _ R Ro E1)|]. split; [|exact A']. eapply E_erase_map; [exact Re|exact Reo|exact E2].
  - destruct IH as (R & Re & A). destruct (smirror_ok X k HX st' o so Ho) as (Ro & Rso & Ao).
    destruct (mref_erase_set st st' t o m so R Ro (SO _ Re) (sreach_sorted X HT so Rso) A Ao) as (t1 & m1 & E1 & E2 & A').
    rewrite E1 in Et. injection Et as <-. rewrite E2 in Em. injection Em as <-.
    split; [exact (M_erase_set X k CC _ _ t o _ R Ro E1)|]. split; [|exact A']. eapply E_erase_set; [exact Re|exact Rso|exact E2].
  - destruct IH as (R & Re & A), IHo as (Ro & Reo & Ao). destruct (mref_and_map st st' t o m mo R Ro (SO _ Re) (SO _ Reo) A Ao Hm) as (t1 & m1 & E1 & E2 & A').
    rewrite E1 in Et. injection Et as <-. rewrite E2 in Em. injection Em as <-.
    split; [exact (M_isec_map X k CC _ _ t_empty t o _ (M_clear X k CC _) R Ro E1)|]. split; [|exact A']. unfold em_and_map in E2. destruct (mt_total M).
    + eapply E_add_map; [exact Re|exact Reo|exact E2].
    + eapply E_isec_map; [apply E_empty|exact Re|exact Reo|exact E2].
  - destruct IH as (R & Re & A). destruct (smirror_ok X k HX st' o so Ho) as (Ro & Rso & Ao).
    destruct (mref_and_set st st' t o m so R Ro (SO _ Re) (sreach_sorted X HT so Rso) A Ao P) as (t1 & m1 & E1 & E2 & A').
    rewrite E1 in Et. injection Et as <-. rewrite E2 in Em. injection Em as <-.
    split; [exact (M_isec_set X k CC _ _ t_empty t o _ (M_clear X k CC _) R Ro E1)|]. split; [|exact A']. eapply E_isec_set; [apply E_empty|exact Re|exact Rso|exact E2].
  - destruct IH as (R & Re & A), IHo as (Ro & Reo & Ao). destruct (mref_flip_map st st' t o m mo R Ro (SO _ Re) (SO _ Reo) A Ao Hm) as (t1 & m1 & E1 & E2 & A').
    rewrite E1 in Et. injection Et as <-. rewrite E2 in Em. injection Em as <-.
    split; [exact (M_flip_map X k CC _ _ t o _ R Ro E1)|]. split; [|exact A']. eapply E_flip_map; [exact Re|exact Reo|exact E2].
Qed.

(* ------------------------------------------------------------------------ size *)
Lemma agree_size (t : imap) (m : emap) phi sub : integral X phi sub -> disc X = true -> forall p', mreach X k CC p' t -> headroom X k t ->
  sorted m -> agrees t m -> c_cardinality X k sub t = Fin (Z.of_nat (e_size X m)).
Proof.
  intros Hp Hd p' R Hr S A. destruct (thm_mcardinality X k HX CC Hco p' t phi sub Hp Hd R Hr) as (e & [N E] & C & _). rewrite C. f_equal. f_equal.
  unfold e_size. rewrite <- (map_length fst m). apply Nat.le_antisymm.
  - apply NoDup_incl_length; [exact N|]. intros x Hx. apply (eat_some_key X HT). rewrite <- (A x). apply E. exact Hx.
  - apply NoDup_incl_length; [apply (sorted_nodup X HT); exact S|]. intros x Hx. apply E. rewrite (A x). apply (eat_some_key X HT). exact Hx.
Qed.
End Maps.
