(** Laws of quantifiers, C89 *)
From Verif Require Import QuantSpec MapReach MapThms MapThms2 MapThms3 MapThms4 DistinctThms.
From Verif Require Import MapModel.

Section Quant.
Context (X : dom) (k : kind) (HX : dom_ok X k) (CC : codomain) (Hco : eq_ok CC).
Notation V := (C CC).
Notation tree := (tree (D X) V).
Notation at_ := (at_ X k CC).
Notation mreach := (mreach X k CC).
Notation law := (law X k CC).
Notation plus := (mplus_ X k CC). Notation minus := (mminus_ X k CC). Notation and := (mand_ X k CC).
Notation padd := (padd CC). Notation psub := (psub CC). Notation good_at := (good_at CC).
Notation denotes := (denotes X k CC).

Definition pand p (o o' : option V) : option V :=
  if mp_total p then padd p o o' else match o' with Some v => and_plain CC p v o | None => None end.

Section Param.
Context (p : mpar) (Hs : cc_set_sem CC = false) (P : proper CC p).
Notation f := (mp_combine p).
Lemma zero_eq (v : V) : cc_eq v cc_zero = true -> v = cc_zero. Proof. apply Hco. Qed.
Lemma zero_neq (v : V) : v <> cc_zero -> cc_eq v cc_zero = false.
Proof. intros N. destruct (cc_eq v cc_zero) eqn:E; [|reflexivity]. apply Hco in E. contradiction. Qed.
Lemma good_nz (v : V) : mp_absorbs p = true -> good_at p (Some v) -> v <> cc_zero.
Proof. intros E G ->. exact (G E eq_refl). Qed.
Lemma not_minus : (forall v : V, first_value CC f v = v) -> (exists v : V, cc_sub cc_zero v <> v) -> f <> F_minus.
Proof. intros F (v & N) E. rewrite E in F. apply N. exact (F v). Qed.

Lemma den_and r s g h : f <> F_minus -> denotes p r g -> denotes p s h -> denotes p (and p r s) (fun x => pand p (g x) (h x)).
Proof.
  intros Nm (t & -> & Ht & Ft) (u & -> & Hu & Fu). unfold pand. destruct (mp_total p) eqn:Et.
  - destruct (thm_mand_map_total X k HX CC Hco p p t u Ht Hu Et P) as (t' & E & Q). exists t'. split; [exact E|].
    split; [exact (M_isec_map X k CC p p t_empty t u t' (M_clear X k CC p) Ht Hu E)|].
    intros x. specialize (Q x). rewrite (copy_plain X k HX CC Hco p t x Nm P Ht) in Q. rewrite Q, Ft, Fu. reflexivity.
  - destruct (thm_mand_map X k HX CC Hco p p t u Ht Hu Et) as (t' & E & Q). exists t'. split; [exact E|].
    split; [exact (M_isec_map X k CC p p t_empty t u t' (M_clear X k CC p) Ht Hu E)|].
    intros x. rewrite Q, Fu. destruct (h x); [|reflexivity]. rewrite (and_plain_eq X k HX CC Hco p t x _ Nm P Ht), Ft. reflexivity.
Qed.
Lemma to_law r s g h : denotes p r g -> denotes p s h -> (forall x, g x = h x) -> law p r s.
Proof. intros R S E. exact (den_eq X k HX CC Hco p r s g h R S E). Qed.

Ltac zc v := let E := fresh "E" in destruct (cc_eq v cc_zero) eqn:E; [apply Hco in E|].
Ltac opn := unfold pand, MapThms3.padd, MapThms3.psub, and_plain, add_val, sub_val, plus_val, store, absorbed, MapSpec.section; rewrite ?Hs.

Section Monoid.
Context (Hm : monoid CC f).
Lemma m_assoc o1 o2 o3 : good_at p o1 -> good_at p o2 -> good_at p o3 -> padd p (padd p o1 o2) o3 = padd p o1 (padd p o2 o3).
Proof.
  destruct Hm as (F & Z & N & As). intros G1 G2 G3. destruct o3 as [w|]; [|reflexivity]. destruct o2 as [v|].
  2:{ opn. rewrite ?F. destruct (mp_absorbs p) eqn:Ea; cbn [andb]; rewrite ?(zero_neq w (good_nz w Ea G3)), ?F; reflexivity. }
  opn. destruct (mp_absorbs p) eqn:Ea; cbn [andb].
  - rewrite (zero_neq w (good_nz w Ea G3)), (zero_neq v (good_nz v Ea G2)). destruct o1 as [u|].
    + zc (combine CC f v w); zc (combine CC f u v); rewrite ?F.
      * f_equal. rewrite <- (Z w), <- E0, As, E, N. reflexivity.
      * rewrite As, E, N, (zero_neq u (good_nz u Ea G1)). reflexivity.
      * rewrite E, <- As, E0, Z, (zero_neq w (good_nz w Ea G3)). reflexivity.
      * rewrite E, As. reflexivity.
    + rewrite ?F. zc (combine CC f v w); [reflexivity|]. rewrite E, ?F. reflexivity.
  - destruct o1 as [u|]; rewrite ?F, ?As; reflexivity.
Qed.
Lemma m_neutral o : good_at p o -> padd p None o = o.
Proof.
  destruct Hm as (F & Z & N & As). intros G. destruct o as [v|]; [|reflexivity]. opn. rewrite F. destruct (mp_absorbs p) eqn:Ea; cbn [andb]; [|reflexivity].
  rewrite (zero_neq v (good_nz v Ea G)). reflexivity.
Qed.
End Monoid.

Section CMonoid.
Context (Hm : cmonoid CC f).
Lemma a_comm o1 o2 : good_at p o1 -> good_at p o2 -> pand p o1 o2 = pand p o2 o1.
Proof.
  intros G1 G2. unfold pand. destruct (mp_total p). { apply (padd_comm CC Hco p o1 o2 Hm G1 G2). }
  destruct Hm as (F & Z & Cm & As). destruct o1 as [u|], o2 as [v|]; try reflexivity. opn. destruct (mp_absorbs p) eqn:Ea; cbn [andb]; [|rewrite Cm; reflexivity].
  rewrite (zero_neq u (good_nz u Ea G1)), (zero_neq v (good_nz v Ea G2)), Cm. reflexivity.
Qed.
Lemma a_assoc o1 o2 o3 : mp_absorbs p = false \/ mp_total p = true \/ no_cancellation CC f ->
  good_at p o1 -> good_at p o2 -> good_at p o3 -> pand p (pand p o1 o2) o3 = pand p o1 (pand p o2 o3).
Proof.
  intros HA G1 G2 G3. unfold pand. destruct (mp_total p) eqn:Et. { apply (padd_assoc CC Hco p o1 o2 o3 Hm G1 G2 G3). }
  destruct Hm as (F & Z & Cm & As). destruct o3 as [w|]; [|reflexivity]. destruct o2 as [v|]; [|reflexivity]. opn. destruct (mp_absorbs p) eqn:Ea; cbn [andb].
  - destruct HA as [HA|[HA|HA]]; try discriminate. pose proof (good_nz w Ea G3) as Nw. pose proof (good_nz v Ea G2) as Nv.
    rewrite (zero_neq w Nw), (zero_neq v Nv). zc (combine CC f v w). { destruct (HA _ _ E); contradiction. }
    destruct o1 as [u|]; [|reflexivity]. rewrite E. zc (combine CC f u v). { destruct (HA _ _ E0); contradiction. } rewrite As. reflexivity.
  - destruct o1 as [u|]; [|reflexivity]. rewrite As. reflexivity.
Qed.
Lemma total_and o1 o2 : mp_total p = true -> pand p o1 o2 = padd p o1 o2.
Proof. intros Et. unfold pand. rewrite Et. reflexivity. Qed.

Context (Hg : cgroup CC f) (Ti : mp_total p = true -> cc_invertible CC = true).
Notation inv := (inverse CC f).
Lemma inv_self (v : V) : combine CC inv v v = cc_zero.
Proof. destruct Hm as (F & Z & Cm & As), Hg as (G1 & G2 & G3). rewrite <- (Z v) at 1. apply G1. Qed.
Lemma inv_neg (w v : V) : combine CC inv w v = combine CC f w (combine CC inv cc_zero v).
Proof.
  destruct Hm as (F & Z & Cm & As), Hg as (G1 & G2 & G3). rewrite <- (G1 v (combine CC f w (combine CC inv cc_zero v))).
  rewrite As, G2, (Cm w cc_zero), Z. reflexivity.
Qed.
Lemma inv_anti (w v : V) : combine CC f (combine CC inv w v) (combine CC inv v w) = cc_zero.
Proof.
  destruct Hm as (F & Z & Cm & As), Hg as (G1 & G2 & G3). rewrite (inv_neg w v), (inv_neg v w), As, <- (As _ v), (G2 v cc_zero), Z, Cm, (G2 w cc_zero). reflexivity.
Qed.
Lemma inv_eq (w v : V) : combine CC inv w v = cc_zero -> w = v.
Proof. destruct Hm as (F & Z & Cm & As), Hg as (G1 & G2 & G3). intros E. rewrite <- (G2 v w), E. apply Z. Qed.
Lemma inv_zero (w : V) : combine CC inv w cc_zero = w.
Proof. destruct Hm as (F & Z & Cm & As), Hg as (G1 & G2 & G3). rewrite <- (G1 cc_zero w) at 2. rewrite (Cm w), Z. reflexivity. Qed.
Definition vof (o : option V) : V := match o with Some v => v | None => cc_zero end.
Lemma vof_eq o o' : mp_absorbs p = true -> good_at p o -> good_at p o' -> vof o = vof o' -> o = o'.
Proof.
  intros Ea G G' E. destruct o as [v|], o' as [w|]; cbn in E; subst; try reflexivity.
  - exfalso. exact (G Ea eq_refl). - exfalso. exact (G' Ea eq_refl).
Qed.
Lemma vof_store (v : V) : vof (store CC p v) = v.
Proof. unfold store, absorbed. destruct (mp_absorbs p); cbn; [|reflexivity]. zc v; [symmetry; exact E|reflexivity]. Qed.
Lemma store_good (v : V) : good_at p (store CC p v).
Proof. intros Ea. unfold store, absorbed. rewrite Ea. cbn. destruct (cc_eq v cc_zero) eqn:E; [discriminate|]. intros [= ->]. rewrite (proj2 (Hco _ _) eq_refl) in E. discriminate. Qed.
Lemma vof_plus g (v : V) o : (forall w : V, first_value CC g w = combine CC g cc_zero w) -> (forall w : V, combine CC g w cc_zero = w) ->
  vof (plus_val CC p g v o) = combine CC g (vof o) v.
Proof.
  intros F0 N0. unfold plus_val. destruct (absorbed CC p v) eqn:E.
  - apply Bool.andb_true_iff in E. destruct E as [_ E]. apply Hco in E. subst. symmetry. apply N0.
  - destruct o as [w|]; [apply vof_store|]. apply F0.
Qed.
Lemma plus_good g (v : V) o : (forall w : V, first_value CC g w = cc_zero -> w = cc_zero) -> good_at p o -> good_at p (plus_val CC p g v o).
Proof.
  intros F0 G. unfold plus_val. destruct (absorbed CC p v) eqn:E; [exact G|]. destruct o as [w|]; [apply store_good|].
  intros Ea [= K]. apply F0 in K. unfold absorbed in E. rewrite Ea, K in E. cbn in E. rewrite (proj2 (Hco _ _) eq_refl) in E. discriminate.
Qed.
Lemma s_diff o1 o2 : good_at p o1 -> good_at p o2 ->
  psub p (padd p o1 o2) (pand p o1 o2) = padd p (psub p o1 o2) (psub p o2 o1).
Proof.
  intros G1 G2. pose proof Hm as (F & Z & Cm & As). pose proof Hg as (I1 & I2 & I3).
  pose proof inv_self as I4. pose proof inv_anti as I5. pose proof inv_eq as I6. pose proof inv_zero as I7.
  destruct (mp_total p) eqn:Et.
  - rewrite (total_and o1 o2 Et). destruct (mp_absorbs p) eqn:Ea.
    + assert (Va : forall o o', vof (padd p o o') = combine CC f (vof o) (vof o')).
      { intros o [v|]; [|cbn; rewrite Cm, Z; reflexivity]. apply vof_plus; intros w; [rewrite F, Z; reflexivity|rewrite Cm, Z; reflexivity]. }
      assert (Vs : forall o o', vof (psub p o o') = combine CC inv (vof o) (vof o')).
      { intros o [v|]; [|cbn; rewrite I7; reflexivity]. unfold MapThms3.psub, sub_val. rewrite Et, (Ti eq_refl). cbn [andb]. apply vof_plus; [exact I3|exact I7]. }
      assert (Ga : forall o o', good_at p o -> good_at p (padd p o o')) by (intros o o' G; apply (padd_good CC Hco p o o' Hm G)).
      assert (Gs : forall o o', good_at p o -> good_at p (psub p o o')).
      { intros o [v|] G; [|exact G]. unfold MapThms3.psub, sub_val. rewrite Et, (Ti eq_refl). cbn [andb]. apply plus_good; [|exact G].
        intros w E. rewrite I3 in E. symmetry. apply I6. exact E. }
      apply (vof_eq _ _ Ea); auto. rewrite !Va, !Vs, !Va, I4, I5. reflexivity.
    + opn. rewrite Et, (Ti eq_refl), Ea. cbn [andb]. destruct o1 as [u|], o2 as [v|]; rewrite ?F, ?I3, ?I4, ?I5; try reflexivity.
      * rewrite Cm, I2. reflexivity.
      * rewrite I2. reflexivity.
  - opn. rewrite Et. cbn [andb]. destruct (mp_absorbs p) eqn:Ea; cbn [andb]; destruct o1 as [u|], o2 as [v|];
      rewrite ?(zero_neq u (good_nz u Ea G1)), ?(zero_neq v (good_nz v Ea G2)), ?F, ?I4, ?I5; try reflexivity.
    + assert (K : u = v \/ (combine CC inv u v <> cc_zero /\ combine CC inv v u <> cc_zero)).
      { destruct (cc_eq u v) eqn:Q; [left; apply Hco; exact Q|right]. split; intros K; apply I6 in K; subst; rewrite (proj2 (Hco _ _) eq_refl) in Q; discriminate. }
      destruct K as [<-|[K1 K2]].
      * rewrite I4, (proj2 (Hco _ _) eq_refl). zc (combine CC f u u); rewrite ?E, ?I4, ?(proj2 (Hco _ _) eq_refl); reflexivity.
      * rewrite (zero_neq _ K1), (zero_neq _ K2), (zero_neq _ K2), I5. zc (combine CC f u v); rewrite ?E, ?I4, ?(proj2 (Hco _ _) eq_refl); reflexivity.
Qed.
End CMonoid.

(* ------------------------------------------------------------------ whole maps *)
Context (a b c : tree) (Ha : mreach p a) (Hb : mreach p b) (Hc : mreach p c).
Notation A := (Ok a). Notation B := (Ok b). Notation C_ := (Ok c). Notation none := (Ok t_empty).
Lemma ga x : good_at p (at_ a x). Proof. apply good_at_reach; assumption. Qed.
Lemma gb x : good_at p (at_ b x). Proof. apply good_at_reach; assumption. Qed.
Lemma gc x : good_at p (at_ c x). Proof. apply good_at_reach; assumption. Qed.
Lemma da : denotes p A (at_ a). Proof. apply MapThms3.den_ok; assumption. Qed.
Lemma db : denotes p B (at_ b). Proof. apply MapThms3.den_ok; assumption. Qed.
Lemma dc : denotes p C_ (at_ c). Proof. apply MapThms3.den_ok; assumption. Qed.
Lemma dn : denotes p none (fun _ => None). Proof. exists t_empty. split; [reflexivity|]. split; [constructor|reflexivity]. Qed.
Lemma dadd r s g h : denotes p r g -> denotes p s h -> denotes p (plus p r s) (fun x => padd p (g x) (h x)).
Proof. apply MapThms3.den_add; assumption. Qed.
Lemma dsub r s g h : denotes p r g -> denotes p s h -> denotes p (minus p r s) (fun x => psub p (g x) (h x)).
Proof. apply MapThms3.den_sub; assumption. Qed.

Lemma monoid_laws : monoid CC f -> law p (plus p A (plus p B C_)) (plus p (plus p A B) C_) /\ law p (plus p A none) A /\ law p (plus p none A) A.
Proof.
  intros Hm. refine (conj _ (conj _ _)).
  - apply (to_law _ _ _ _ (dadd _ _ _ _ da (dadd _ _ _ _ db dc)) (dadd _ _ _ _ (dadd _ _ _ _ da db) dc)).
    intros x. symmetry. apply (m_assoc Hm); [apply ga|apply gb|apply gc].
  - apply (to_law _ _ _ _ (dadd _ _ _ _ da dn) da). reflexivity.
  - apply (to_law _ _ _ _ (dadd _ _ _ _ dn da) da). intros x. apply (m_neutral Hm). apply ga.
Qed.
Lemma minus_neutral : law p (minus p A none) A.
Proof. apply (to_law _ _ _ _ (dsub _ _ _ _ da dn) da). reflexivity. Qed.
Lemma and_comm : f <> F_minus -> cmonoid CC f -> law p (and p A B) (and p B A).
Proof. intros Nm Hm. apply (to_law _ _ _ _ (den_and _ _ _ _ Nm da db) (den_and _ _ _ _ Nm db da)). intros x. apply (a_comm Hm); [apply ga|apply gb]. Qed.
Lemma and_assoc : f <> F_minus -> cmonoid CC f -> mp_absorbs p = false \/ mp_total p = true \/ no_cancellation CC f ->
  law p (and p A (and p B C_)) (and p (and p A B) C_).
Proof.
  intros Nm Hm HA. apply (to_law _ _ _ _ (den_and _ _ _ _ Nm da (den_and _ _ _ _ Nm db dc)) (den_and _ _ _ _ Nm (den_and _ _ _ _ Nm da db) dc)).
  intros x. symmetry. apply (a_assoc Hm _ _ _ HA); [apply ga|apply gb|apply gc].
Qed.
Lemma and_total : f <> F_minus -> mp_total p = true -> law p (and p A B) (plus p A B).
Proof. intros Nm Et. apply (to_law _ _ _ _ (den_and _ _ _ _ Nm da db) (dadd _ _ _ _ da db)). intros x. unfold pand. rewrite Et. reflexivity. Qed.
Lemma symmetric_difference : f <> F_minus -> cmonoid CC f -> cgroup CC f -> (mp_total p = true -> cc_invertible CC = true) ->
  law p (minus p (plus p A B) (and p A B)) (plus p (minus p A B) (minus p B A)).
Proof.
  intros Nm Hm Hg Ti. apply (to_law _ _ _ _ (dsub _ _ _ _ (dadd _ _ _ _ da db) (den_and _ _ _ _ Nm da db)) (dadd _ _ _ _ (dsub _ _ _ _ da db) (dsub _ _ _ _ db da))).
  intros x. apply (s_diff Hm Hg Ti); [apply ga|apply gb].
Qed.
Lemma nothing r g : mp_style p = MJoin -> denotes p r g -> (forall x v, v <> cc_zero -> g x <> Some v) -> meq_distinct X k CC p r none.
Proof.
  intros ES (t & -> & Ht & Ft) H. exists t, t_empty. split; [reflexivity|]. split; [reflexivity|].
  destruct (thm_distinct_joined X k HX CC Hco p t t_empty ES Ht (M_clear X k CC p)) as (d & -> & Q). f_equal. apply Q.
  intros x v N. rewrite Ft. split; [intros E; destruct (H x v N E)|intros E; discriminate E].
Qed.
Lemma inversion_distinct : mp_style p = MJoin -> (forall v : V, combine CC (inverse CC f) v v = cc_zero) -> meq_distinct X k CC p (minus p A A) none.
Proof.
  intros ES I. apply (nothing _ _ ES (dsub _ _ _ _ da da)). intros x v N. opn. destruct (at_ a x) as [w|] eqn:Ew; [|discriminate]. rewrite I.
  assert (K : (if mp_absorbs p && cc_eq w cc_zero then Some w else if mp_absorbs p && cc_eq (cc_zero : V) cc_zero then None else Some (cc_zero : V)) <> Some v).
  { destruct (mp_absorbs p) eqn:Ea; cbn [andb].
    - pose proof (ga x) as G. rewrite Ew in G. rewrite (zero_neq w (good_nz w Ea G)), (proj2 (Hco _ _) eq_refl). discriminate.
    - intros [= K]. congruence. }
  destruct (mp_total p && cc_invertible CC); exact K.
Qed.
Lemma inverse_distinct : mp_style p = MJoin -> cmonoid CC f -> cgroup CC f -> mp_total p = true -> cc_invertible CC = true ->
  meq_distinct X k CC p (plus p (minus p none A) A) none.
Proof.
  intros ES Hm Hg Et Ei. pose proof Hm as (F & Z & Cm & As). pose proof Hg as (I1 & I2 & I3).
  apply (nothing _ _ ES (dadd _ _ _ _ (dsub _ _ _ _ dn da) da)). intros x v N. opn. rewrite Et, Ei. cbn [andb].
  destruct (at_ a x) as [w|] eqn:Ew; [|discriminate]. rewrite I3. pose proof (ga x) as G. rewrite Ew in G.
  destruct (mp_absorbs p) eqn:Ea; cbn [andb].
  - rewrite (zero_neq w (good_nz w Ea G)). rewrite (I2 w cc_zero), (proj2 (Hco _ _) eq_refl). discriminate.
  - rewrite (I2 w cc_zero). intros [= K]. congruence.
Qed.
End Param.
End Quant.
