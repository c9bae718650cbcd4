(** is_distinct_equal on interval maps (proofs). *)
From Verif Require Import MapReach MapThms MapThms2 MapThms3 MapThms4 MapQuery DistinctSpec.
From Verif Require Import MapModel.
From Coq Require Import Lia.

Section Lists.
Context (X : dom) (k : kind) (HX : dom_ok X k) (M : mtype).
Notation CC := (mt_co M).
Notation V := (C CC).
Notation node := (node (D X) V).
Notation tree := (tree (D X) V).
Definition nz (n : node) : bool := negb (cc_eq (nval n) cc_zero).

Lemma next_at : forall R fuel (t : tree) L, wf t -> nodes t = L ++ R -> length R < fuel ->
  exists L' R', m_next_proton X M fuel t (Tree.hd_it R) = Ok (Tree.hd_it R') /\ nodes t = L' ++ R' /\
    filter nz R = filter nz R' /\ length R' <= length R /\ match R' with [] => True | n :: _ => nz n = true end.
Proof.
  induction R as [|n R IH]; intros [|fuel] t L W E Hf; try (cbn in Hf; lia); cbn [m_next_proton Tree.hd_it].
  - exists L, []. cbn. auto.
  - change (iter_eqb (Some (nid n)) (end_ t)) with false. cbn [negb].
    rewrite (val_at X t L n R) by auto. cbn [bind]. destruct (cc_eq (nval n) cc_zero) eqn:Z.
    + rewrite (incr_at X t L n R) by auto. cbn [bind]. destruct (IH fuel t (L ++ [n]) W) as (L' & R' & E1 & E2 & E3 & E4 & E5).
      { rewrite <- app_assoc. exact E. } { cbn in Hf; lia. }
      exists L', R'. split; [exact E1|]. split; [exact E2|]. split. { cbn [filter]. unfold nz at 1. rewrite Z. exact E3. }
      split; [cbn; lia|exact E5].
    + exists L, (n :: R). split; [reflexivity|]. split; [exact E|]. split; [reflexivity|]. split; [lia|]. unfold nz. rewrite Z. reflexivity.
Qed.
Lemma loop_at : forall fuel (l r : tree) L L' R R', wf l -> wf r -> nodes l = L ++ R -> nodes r = L' ++ R' -> length R < fuel ->
  match R with [] => True | n :: _ => nz n = true end -> match R' with [] => True | n :: _ => nz n = true end ->
  m_distinct_loop X k M fuel l r (Tree.hd_it R) (Tree.hd_it R') = Ok (segs_eqb X k M (filter nz R) (filter nz R')).
Proof.
  induction fuel as [|fuel IH]; intros l r L L' R R' Wl Wr El Er Hf HR HR'; [lia|]. cbn [m_distinct_loop].
  destruct R as [|n R], R' as [|m R'].
  - reflexivity.
  - cbn [filter]. rewrite HR'. reflexivity.
  - cbn [filter]. rewrite HR. reflexivity.
  - cbn [Tree.hd_it]. change (iter_eqb (Some (nid n)) (end_ l)) with false. change (iter_eqb (Some (nid m)) (end_ r)) with false. cbn [negb andb].
    rewrite (deref_at X l L n R) by auto. rewrite (deref_at X r L' m R') by auto. cbn [bind].
    cbn [filter]. rewrite HR, HR'. cbn [segs_eqb].
    destruct (itv_eqb X k (nkey n) (nkey m) && cc_eq (nval n) (nval m)); cbn [negb andb]; [|reflexivity].
    rewrite (incr_at X l L n R) by auto. rewrite (incr_at X r L' m R') by auto. cbn [bind].
    destruct (next_at R (Datatypes.S (length (nodes l))) l (L ++ [n]) Wl) as (L1 & R1 & E1 & E2 & E3 & E4 & E5).
    { rewrite <- app_assoc. exact El. } { rewrite El, app_length. cbn. lia. }
    destruct (next_at R' (Datatypes.S (length (nodes r))) r (L' ++ [m]) Wr) as (L2 & R2 & F1 & F2 & F3 & F4 & F5).
    { rewrite <- app_assoc. exact Er. } { rewrite Er, app_length. cbn. lia. }
    rewrite E1. cbn [bind]. rewrite F1. cbn [bind]. rewrite E3, F3. apply (IH l r L1 L2); auto. cbn in Hf; lia.
Qed.
Lemma distinct_filter (l r : tree) : wf l -> wf r ->
  m_distinct_eqb X k M l r = Ok (segs_eqb X k M (filter nz (nodes l)) (filter nz (nodes r))).
Proof.
  intros Wl Wr. unfold m_distinct_eqb. change (begin_ l) with (Tree.hd_it (nodes l)). change (begin_ r) with (Tree.hd_it (nodes r)).
  destruct (next_at (nodes l) (Datatypes.S (length (nodes l))) l [] Wl eq_refl) as (L1 & R1 & E1 & E2 & E3 & E4 & E5); [lia|].
  destruct (next_at (nodes r) (Datatypes.S (length (nodes r))) r [] Wr eq_refl) as (L2 & R2 & F1 & F2 & F3 & F4 & F5); [lia|].
  rewrite E1. cbn [bind]. rewrite F1. cbn [bind]. rewrite E3, F3. apply (loop_at _ l r L1 L2); auto. lia.
Qed.
End Lists.

Section Top.
Context (X : dom) (k : kind) (HX : dom_ok X k) (CC : codomain) (Hco : eq_ok CC).
Notation at_ := (at_ X k CC).
Notation mreach := (mreach X k CC).
Notation tree := (tree (D X) (C CC)).

Lemma protons p (t : tree) : mreach p t -> exists t', mreach p t' /\ nodes t' = filter (nz X (mt CC p)) (nodes t) /\
  segs X CC t' = filter (fun s => negb (cc_eq (snd s) cc_zero)) (segs X CC t) /\
  forall x, at_ t' x = match at_ t x with Some v => if cc_eq v cc_zero then None else Some v | None => None end.
Proof.
  intros Ht. destruct (erase_if_all X k HX (mt CC p) (fun _ v => cc_eq v cc_zero) t (mreach_minv X k HX CC Hco p t Ht)) as (t' & E & _ & Q).
  exists t'. split; [exact (M_erase_if X k CC p t _ t' Ht E)|]. split; [exact Q|]. split.
  - destruct (thm_merase_if X k HX CC Hco p t Ht (fun _ v => cc_eq v cc_zero)) as (t2 & E2 & Q2).
    pose proof (eq_trans (eq_sym E) E2) as EE. injection EE as ->. exact Q2.
  - intros x. rewrite !(at_vr X k HX CC). cbn [mt_co mt] in Q. rewrite Q.
    apply (filter_vf X k HX (mt CC p) (fun v => cc_eq v cc_zero)). apply (mreach_inv X k HX CC Hco p t Ht).
Qed.

Lemma distinct_at (o1 o2 : option (C CC)) :
  (match o1 with Some v => if cc_eq v cc_zero then None else Some v | None => None end =
   match o2 with Some v => if cc_eq v cc_zero then None else Some v | None => None end) <->
  forall v, v <> cc_zero -> (o1 = Some v <-> o2 = Some v).
Proof.
  assert (Q : forall v : C CC, (if cc_eq v cc_zero then None else Some v) = if cc_eq v cc_zero then None else Some v) by reflexivity.
  destruct o1 as [v|], o2 as [w|]; try (destruct (cc_eq v cc_zero) eqn:Ev); try (destruct (cc_eq w cc_zero) eqn:Ew);
    try apply Hco in Ev; try apply Hco in Ew; split; intros H; try discriminate H; try reflexivity.
  all: try (intros u Hu; split; intros E; (discriminate E || (injection E as ->; congruence)) ).
  all: try (exfalso; assert (N : w <> cc_zero) by (intros E; apply Hco in E; congruence); destruct (H w N) as [_ H2]; specialize (H2 eq_refl); congruence).
  all: try (exfalso; assert (N : v <> cc_zero) by (intros E; apply Hco in E; congruence); destruct (H v N) as [H2 _]; specialize (H2 eq_refl); congruence).
  assert (N : v <> cc_zero) by (intros E; apply Hco in E; congruence). destruct (H v N) as [H2 _]. symmetry. exact (H2 eq_refl).
Qed.

Lemma thm_distinct p t o : mreach p t -> mreach p o -> exists b, m_distinct_eqb X k (mt CC p) t o = Ok b /\
  (b = true <-> (forall x v, v <> cc_zero -> (at_ t x = Some v <-> at_ o x = Some v)) /\
     forall x y, same_seg X k (proton_keys X CC t) x y <-> same_seg X k (proton_keys X CC o) x y).
Proof.
  intros Ht Ho. destruct (protons p t Ht) as (t' & R1 & N1 & S1 & A1). destruct (protons p o Ho) as (o' & R2 & N2 & S2 & A2).
  eexists. split.
  { apply (distinct_filter X k (mt CC p)); [apply (mreach_inv X k HX CC Hco p t Ht)|apply (mreach_inv X k HX CC Hco p o Ho)]. }
  cbn [mt_co mt] in *. rewrite <- N1, <- N2. change (segs_eqb X k (mt CC p) (nodes t') (nodes o')) with (m_eqb X k (mt CC p) t' o').
  rewrite (thm_meqb X k HX CC Hco p p t' o' R1 R2), S1, S2. unfold proton_keys.
  split; intros [Q1 Q2]; (split; [|exact Q2]).
  - intros x. apply distinct_at. rewrite <- A1, <- A2. apply Q1.
  - intros x. rewrite A1, A2. apply distinct_at. apply Q1.
Qed.
Lemma thm_distinct_joined p t o : mp_style p = MJoin -> mreach p t -> mreach p o -> exists b, m_distinct_eqb X k (mt CC p) t o = Ok b /\
  (b = true <-> forall x v, v <> cc_zero -> (at_ t x = Some v <-> at_ o x = Some v)).
Proof.
  intros ES Ht Ho. destruct (protons p t Ht) as (t' & R1 & N1 & S1 & A1). destruct (protons p o Ho) as (o' & R2 & N2 & S2 & A2).
  eexists. split.
  { apply (distinct_filter X k (mt CC p)); [apply (mreach_inv X k HX CC Hco p t Ht)|apply (mreach_inv X k HX CC Hco p o Ho)]. }
  cbn [mt_co mt] in *. rewrite <- N1, <- N2. change (segs_eqb X k (mt CC p) (nodes t') (nodes o')) with (m_eqb X k (mt CC p) t' o').
  rewrite (thm_meqb_joined X k HX CC Hco p p t' o' ES ES R1 R2).
  split; intros Q.
  - intros x. apply distinct_at. rewrite <- A1, <- A2. apply Q.
  - intros x. rewrite A1, A2. apply distinct_at. apply Q.
Qed.
(** for maps without identity elements it is operator == *)
Lemma thm_distinct_absorber p t o : proper CC p -> mp_absorbs p = true -> mreach p t -> mreach p o ->
  m_distinct_eqb X k (mt CC p) t o = Ok (m_eqb X k (mt CC p) t o).
Proof.
  intros P Ab Ht Ho.
  assert (F : forall u, mreach p u -> filter (nz X (mt CC p)) (nodes u) = nodes u).
  { intros u Hu. assert (A : forall n, In n (nodes u) -> nval n <> cc_zero).
    { intros n Hn. apply (thm_absorber X k HX CC Hco p u (nkey n) (nval n) Hu P Ab). unfold segs. apply in_map_iff. exists n. auto. }
    clear - A Hco. induction (nodes u) as [|n l IH]; cbn [filter]; auto. unfold nz at 1.
    cbn [mt_co mt] in *. destruct (cc_eq (nval n) cc_zero) eqn:E. { exfalso. apply (A n); [left; reflexivity|]. apply Hco. exact E. }
    cbn [negb]. f_equal. apply IH. intros m Hm. apply A. right. exact Hm. }
  rewrite (distinct_filter X k (mt CC p)); [|apply (mreach_inv X k HX CC Hco p t Ht)|apply (mreach_inv X k HX CC Hco p o Ho)].
  cbn [mt_co mt] in *. rewrite !F by assumption. reflexivity.
Qed.
End Top.
