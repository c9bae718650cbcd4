(** subset_compare: proofs. *)
From Verif Require Export ContJoin.

Section ContCompare.
Context (X : dom) (k : kind).
Context (HX : dom_ok X k).
Context {V W : Type}.
Notation I := (itv (D X)).
Notation lnode := (node (D X) V).
Notation rnode := (node (D X) W).
Notation ltree := (tree (D X) V).
Notation rtree := (tree (D X) W).
Notation lc := (lc X k).
Notation uc := (uc X k).
Notation pt := (pt X).
Notation cltb := (cltb X).
Notation ceqb := (ceqb X).
Notation cut := (cut X).
Notation ne := (@ne X k).
Notation ok := (cut_ok X k).
Notation length := List.length.
Notation incl := ContModel.incl.
Notation hdl := (@hd_it X V).
Notation hdr := (@hd_it X W).
Ltac cord := cord_ X k HX.
Context (co : option (V -> W -> incl)).
Context (l : ltree) (r : rtree) (Hl : inv k l) (Hr : inv k r).

Definition fsub (v : V) (w : W) : bool := match co with Some f => fst (f v w) | None => true end.
Definition fsup (v : V) (w : W) : bool := match co with Some f => snd (f v w) | None => true end.
(** the element [x] of the left (right) container is an element of the other one *)
Definition subx (x : D X) : bool :=
  match vr k (nodes l) (pt x) with
  | Some v => match vr k (nodes r) (pt x) with Some w => fsub v w | None => false end
  | None => true
  end.
Definition supx (x : D X) : bool :=
  match vr k (nodes r) (pt x) with
  | Some w => match vr k (nodes l) (pt x) with Some v => fsup v w | None => false end
  | None => true
  end.
Definition Upto (f : D X -> bool) (p : cut) : Prop := forall x, cltb (pt x) p = true -> f x = true.
Definition Bits (p : cut) (s : incl) : Prop := (fst s = true <-> Upto subx p) /\ (snd s = true <-> Upto supx p).
Definition Final (s : incl) : Prop := (fst s = true <-> forall x, subx x = true) /\ (snd s = true <-> forall x, supx x = true).

Lemma Upto_ext f p p' (b s : bool) : cltb p' p = false ->
  (b = true <-> forall x, cltb (pt x) p = false -> cltb (pt x) p' = true -> f x = true) ->
  (s = true <-> Upto f p) -> (s && b = true <-> Upto f p').
Proof.
  intros H Hb Hs. rewrite andb_true_iff, Hb, Hs. unfold Upto. split.
  - intros [A B] x Hx. destruct (cltb (pt x) p) eqn:E; auto.
  - intros A. split; intros; apply A; auto. cord.
Qed.
Lemma Bits_ff p s : Bits p s -> is_unrelated s = true -> Final s.
Proof.
  intros [A B] U. unfold is_unrelated in U. apply andb_true_iff in U. destruct U as [U1 U2]. apply negb_true_iff in U1, U2.
  rewrite U1 in A. rewrite U2 in B. split; rewrite ?U1, ?U2; split; try discriminate; intros H; [apply A|apply B]; intros x _; auto.
Qed.
Lemma Bits_less p s s' : Bits p s -> is_unrelated s' = true -> (fst s = true -> fst s' = true) -> (snd s = true -> snd s' = true) -> Final s'.
Proof.
  intros A U F1 F2. unfold is_unrelated in U. apply andb_true_iff in U. destruct U as [U1 U2]. apply negb_true_iff in U1, U2.
  rewrite U1 in F1. rewrite U2 in F2.
  assert (s = (false, false)) as ->. { destruct s as [[] []]; cbn in *; auto; exfalso; intuition discriminate. }
  assert (s' = (false, false)) as ->. { destruct s'; cbn in *; congruence. }
  eapply Bits_ff; eauto.
Qed.

(* --------------------------------------------------------------- one region *)
Definition subreg (p : cut) (a : lnode) (b : rnode) : bool :=
  negb (cltb (lc (nkey a)) (uc (nkey b))) || (negb (cltb (cmax X p (lc (nkey a))) (lc (nkey b))) && fsub (nval a) (nval b)).
Definition supreg (p : cut) (a : lnode) (b : rnode) : bool :=
  negb (cltb (lc (nkey b)) (uc (nkey a))) || (negb (cltb (cmax X p (lc (nkey b))) (lc (nkey a))) && fsup (nval a) (nval b)).

Lemma region {U} (t : tree (D X) U) L a R p c : inv k t -> nodes t = L ++ a :: R -> below k L p ->
  cltb c p = false -> cltb c (uc (nkey a)) = true ->
  vr k (nodes t) c = if cltb c (lc (nkey a)) then None else Some (nval a).
Proof.
  intros [_ S] E B H1 H2. rewrite E in *. rewrite vr_app, (vr_below X k HX L p) by auto. cbn [Seg.orelse vr].
  apply (srt_mid X k HX) in S. destruct S as (_ & Na & _ & _ & A).
  unfold inr. rewrite H2. destruct (cltb c (lc (nkey a))); cbn; auto. eapply vr_above; eauto.
Qed.

Section Region.
Context (L1 L2 : list lnode) (R1 R2 : list rnode) (a : lnode) (b : rnode) (p : cut).
Context (El : nodes l = L1 ++ a :: L2) (Er : nodes r = R1 ++ b :: R2) (Op : ok p) (Bl : below k L1 p) (Br : below k R1 p).
Context (Pa : cltb p (uc (nkey a)) = true) (Pb : cltb p (uc (nkey b)) = true).
Let p' := cmin X (uc (nkey a)) (uc (nkey b)).

Lemma ne_a : ne (nkey a).
Proof. destruct Hl as [_ S]. rewrite El in S. apply (srt_mid X k HX) in S. tauto. Qed.
Lemma ne_b : ne (nkey b).
Proof. destruct Hr as [_ S]. rewrite Er in S. apply (srt_mid X k HX) in S. tauto. Qed.
Lemma pp' : cltb p p' = true.
Proof. unfold p', cmin. ifg; auto. Qed.
Lemma reg_l c : cltb c p = false -> cltb c p' = true -> vr k (nodes l) c = if cltb c (lc (nkey a)) then None else Some (nval a).
Proof. intros. eapply region; eauto. unfold p', cmin in *. revert H0. ifg; intros; cord. Qed.
Lemma reg_r c : cltb c p = false -> cltb c p' = true -> vr k (nodes r) c = if cltb c (lc (nkey b)) then None else Some (nval b).
Proof. intros. eapply region; eauto. unfold p', cmin in *. revert H0. ifg; intros; cord. Qed.
Lemma ok_max c d : ok c -> ok d -> ok (cmax X c d). Proof. intros. unfold cmax. ifg; auto. Qed.
Lemma ok_min c d : ok c -> ok d -> ok (cmin X c d). Proof. intros. unfold cmin. ifg; auto. Qed.
Lemma ok_p' : ok p'. Proof. apply ok_min; apply uc_ok. Qed.

Lemma subreg_iff : subreg p a b = true <-> forall x, cltb (pt x) p = false -> cltb (pt x) p' = true -> subx x = true.
Proof.
  pose proof ne_a as Na. pose proof ne_b as Nb. unfold Seg.ne in *. pose proof pp' as P1.
  split.
  - intros H x G1 G2. unfold subx. rewrite (reg_l _ G1 G2), (reg_r _ G1 G2).
    unfold subreg in H. destruct (cltb (pt x) (lc (nkey a))) eqn:E1; auto.
    assert (cltb (lc (nkey a)) (uc (nkey b)) = true) as C. { unfold p', cmin in *. revert G2. clear H. ifg; intros; cord. }
    rewrite C in H. cbn in H. apply andb_true_iff in H. destruct H as [H1 H2]. apply negb_true_iff in H1.
    destruct (cltb (pt x) (lc (nkey b))) eqn:E2; auto. exfalso. unfold cmax in H1. revert H1. ifg; intros; cord.
  - intros H. unfold subreg. destruct (cltb (lc (nkey a)) (uc (nkey b))) eqn:E; auto. cbn [negb orb].
    assert (Q : cltb (cmax X p (lc (nkey a))) p' = true). { clear H. unfold cmax, p', cmin. repeat ifg; cord. }
    set (q := cmax X p (lc (nkey a))) in *.
    assert (Oq : ok q) by (apply ok_max; auto; apply lc_ok).
    assert (Q1 : cltb q p = false) by (unfold q, cmax; ifg; cord).
    assert (Q2 : cltb q (lc (nkey a)) = false) by (unfold q, cmax; ifg; cord).
    destruct (cltb q (lc (nkey b))) eqn:Eq.
    + destruct (cut_gap X k HX q (cmin X p' (lc (nkey b)))) as (x & G1 & G2); auto.
      * apply ok_min; auto using ok_p', lc_ok.
      * unfold cmin. ifg; auto.
      * assert (cltb (pt x) p' = true) as G3 by (unfold cmin in G2; revert G2; ifg; intros; cord).
        assert (cltb (pt x) (lc (nkey b)) = true) as G4 by (unfold cmin in G2; revert G2; ifg; intros; cord).
        assert (cltb (pt x) p = false) as G5 by cord. assert (cltb (pt x) (lc (nkey a)) = false) as G6 by cord.
        specialize (H x G5 G3). unfold subx in H. rewrite (reg_l _ G5 G3), (reg_r _ G5 G3), G4, G6 in H. discriminate.
    + destruct (cut_gap X k HX q p' Oq ok_p' Q) as (x & G1 & G2).
      assert (cltb (pt x) p = false) as G5 by cord. assert (cltb (pt x) (lc (nkey a)) = false) as G6 by cord. assert (cltb (pt x) (lc (nkey b)) = false) as G7 by cord.
      specialize (H x G5 G2). unfold subx in H. rewrite (reg_l _ G5 G2), (reg_r _ G5 G2), G7, G6 in H. auto.
Qed.
Lemma supreg_iff : supreg p a b = true <-> forall x, cltb (pt x) p = false -> cltb (pt x) p' = true -> supx x = true.
Proof.
  pose proof ne_a as Na. pose proof ne_b as Nb. unfold Seg.ne in *. pose proof pp' as P1.
  split.
  - intros H x G1 G2. unfold supx. rewrite (reg_l _ G1 G2), (reg_r _ G1 G2).
    unfold supreg in H. destruct (cltb (pt x) (lc (nkey b))) eqn:E1; auto.
    assert (cltb (lc (nkey b)) (uc (nkey a)) = true) as C. { unfold p', cmin in *. revert G2. clear H. ifg; intros; cord. }
    rewrite C in H. cbn in H. apply andb_true_iff in H. destruct H as [H1 H2]. apply negb_true_iff in H1.
    destruct (cltb (pt x) (lc (nkey a))) eqn:E2; auto. exfalso. unfold cmax in H1. revert H1. ifg; intros; cord.
  - intros H. unfold supreg. destruct (cltb (lc (nkey b)) (uc (nkey a))) eqn:E; auto. cbn [negb orb].
    assert (Q : cltb (cmax X p (lc (nkey b))) p' = true). { clear H. unfold cmax, p', cmin. repeat ifg; cord. }
    set (q := cmax X p (lc (nkey b))) in *.
    assert (Oq : ok q) by (apply ok_max; auto; apply lc_ok).
    assert (Q1 : cltb q p = false) by (unfold q, cmax; ifg; cord).
    assert (Q2 : cltb q (lc (nkey b)) = false) by (unfold q, cmax; ifg; cord).
    destruct (cltb q (lc (nkey a))) eqn:Eq.
    + destruct (cut_gap X k HX q (cmin X p' (lc (nkey a)))) as (x & G1 & G2); auto.
      * apply ok_min; auto using ok_p', lc_ok.
      * unfold cmin. ifg; auto.
      * assert (cltb (pt x) p' = true) as G3 by (unfold cmin in G2; revert G2; ifg; intros; cord).
        assert (cltb (pt x) (lc (nkey a)) = true) as G4 by (unfold cmin in G2; revert G2; ifg; intros; cord).
        assert (cltb (pt x) p = false) as G5 by cord. assert (cltb (pt x) (lc (nkey b)) = false) as G6 by cord.
        specialize (H x G5 G3). unfold supx in H. rewrite (reg_l _ G5 G3), (reg_r _ G5 G3), G4, G6 in H. discriminate.
    + destruct (cut_gap X k HX q p' Oq ok_p' Q) as (x & G1 & G2).
      assert (cltb (pt x) p = false) as G5 by cord. assert (cltb (pt x) (lc (nkey b)) = false) as G6 by cord. assert (cltb (pt x) (lc (nkey a)) = false) as G7 by cord.
      specialize (H x G5 G2). unfold supx in H. rewrite (reg_l _ G5 G2), (reg_r _ G5 G2), G7, G6 in H. auto.
Qed.
Lemma reg_bits s : Bits p s -> Bits p' (fst s && subreg p a b, snd s && supreg p a b).
Proof.
  intros [H1 H2]. pose proof pp'. split; cbn [fst snd]; eapply Upto_ext; eauto using subreg_iff, supreg_iff; cord.
Qed.
End Region.

(* --------------------------------------------------------------- the states *)
Definition Inv (s : cstate) (c : cmp) (p : cut) (L1 L2 : list lnode) (R1 R2 : list rnode) : Prop :=
  nodes l = L1 ++ L2 /\ nodes r = R1 ++ R2 /\ c_left c = hdl L2 /\ c_right c = hdr R2 /\ ok p /\
  below k L1 p /\ below k R1 p /\ Bits p (c_result c) /\
  match s with
  | Nextboth => above k L2 p /\ above k R2 p
  | Nextleft => (exists L0 n, L1 = L0 ++ [n] /\ c_pl c = Some (nid n) /\ ceqb (uc (nkey n)) p = true) /\
                exists b R, R2 = b :: R /\ cltb p (uc (nkey b)) = true /\ (cltb p (lc (nkey b)) = true -> fst (c_result c) = false)
  | Nextright => (exists R0 n, R1 = R0 ++ [n] /\ c_pr c = Some (nid n) /\ ceqb (uc (nkey n)) p = true) /\
                exists a L, L2 = a :: L /\ cltb p (uc (nkey a)) = true /\ (cltb p (lc (nkey a)) = true -> snd (c_result c) = false)
  | Stop => False
  end.
Definition Good (n : nat) (o : res (cmp * cstate)) : Prop :=
  exists c s, o = Ok (c, s) /\
    ((s = Stop /\ Final (c_result c)) \/
     (exists p L1 L2 R1 R2, Inv s c p L1 L2 R1 R2 /\ length L2 + length R2 < n)).

Lemma below_snoc {U} (L : list (node (D X) U)) n R p : srt k (L ++ n :: R) -> cltb p (uc (nkey n)) = false -> below k (L ++ [n]) p.
Proof.
  intros S H. apply (srt_mid X k HX) in S. destruct S as (_ & _ & Nn & B & _). apply below_app. split.
  - eapply below_le; eauto. unfold Seg.ne in *. cord.
  - repeat constructor; auto.
Qed.

Lemma proceed_at L1 L2 R1 R2 a b p c s :
  nodes l = L1 ++ a :: L2 -> nodes r = R1 ++ b :: R2 -> c_left c = Some (nid a) -> c_right c = Some (nid b) -> ok p ->
  below k L1 p -> below k R1 p -> cltb p (uc (nkey a)) = true -> cltb p (uc (nkey b)) = true ->
  Bits p s -> c_result c = (fst s && subreg p a b, snd s && supreg p a b) ->
  Good (length (a :: L2) + length (b :: R2)) (c_proceed X k l r c).
Proof.
  intros El Er Cl Cr Op Bl Br Pa Pb Bs Ec.
  pose proof (reg_bits L1 L2 R1 R2 a b p El Er Op Bl Br Pa Pb s Bs) as B'. rewrite <- Ec in B'.
  pose proof Hl as [Wl Sl]. pose proof Hr as [Wr Sr].
  assert (Na : ne (nkey a)) by (eapply ne_a; eauto). assert (Nb : ne (nkey b)) by (eapply ne_b; eauto).
  unfold c_proceed. rewrite Cl, Cr, (key_at X l L1 a L2), (key_at X r R1 b R2) by auto. cbn [bind].
  rewrite !(upper_less_cut X k HX) by (apply nonempty_edge; auto; apply (ne_iff X k HX); auto).
  destruct (cltb (uc (nkey a)) (uc (nkey b))) eqn:E1; [|destruct (cltb (uc (nkey b)) (uc (nkey a))) eqn:E2].
  - rewrite (incr_at X l L1 a L2) by auto. cbn [bind]. do 2 eexists. split; [reflexivity|]. right.
    assert (Em : cmin X (uc (nkey a)) (uc (nkey b)) = uc (nkey a)) by (unfold cmin; ifg; auto; exfalso; cord). rewrite Em in B'.
    exists (uc (nkey a)), (L1 ++ [a]), L2, R1, (b :: R2). split; [|cbn; lia].
    split; [rewrite <- app_assoc; auto|]. split; auto. cbn [c_left c_right c_result c_pl].
    split; auto. split; auto. split; [apply uc_ok|]. split.
    { rewrite El in Sl. eapply below_snoc; eauto. cord. }
    split. { eapply below_le; eauto. cord. }
    split; auto. split.
    + exists L1, a. conjs; auto. cord.
    + exists b, R2. conjs; auto. intros H. rewrite Ec. cbn [fst].
      replace (subreg p a b) with false; [apply andb_false_r|]. unfold subreg.
      unfold Seg.ne in *. assert (C : cltb (lc (nkey a)) (uc (nkey b)) = true) by cord. rewrite C. cbn. unfold cmax. ifg.
      * assert (C2 : cltb (lc (nkey a)) (lc (nkey b)) = true) by cord. rewrite C2. auto.
      * assert (C2 : cltb p (lc (nkey b)) = true) by cord. rewrite C2. auto.
  - rewrite (incr_at X r R1 b R2) by auto. cbn [bind]. do 2 eexists. split; [reflexivity|]. right.
    assert (Em : cmin X (uc (nkey a)) (uc (nkey b)) = uc (nkey b)) by (unfold cmin; ifg; auto; exfalso; cord). rewrite Em in B'.
    exists (uc (nkey b)), L1, (a :: L2), (R1 ++ [b]), R2. split; [|cbn; lia].
    split; auto. split; [rewrite <- app_assoc; auto|]. cbn [c_left c_right c_result c_pr].
    split; auto. split; auto. split; [apply uc_ok|]. split.
    { eapply below_le; eauto. cord. }
    split. { rewrite Er in Sr. eapply below_snoc; eauto. cord. }
    split; auto. split.
    + exists R1, b. conjs; auto. cord.
    + exists a, L2. conjs; auto. intros H. rewrite Ec. cbn [snd].
      replace (supreg p a b) with false; [apply andb_false_r|]. unfold supreg.
      unfold Seg.ne in *. assert (C : cltb (lc (nkey b)) (uc (nkey a)) = true) by cord. rewrite C. cbn. unfold cmax. ifg.
      * assert (C2 : cltb (lc (nkey b)) (lc (nkey a)) = true) by cord. rewrite C2. auto.
      * assert (C2 : cltb p (lc (nkey a)) = true) by cord. rewrite C2. auto.
  - rewrite (incr_at X l L1 a L2), (incr_at X r R1 b R2) by auto. cbn [bind]. do 2 eexists. split; [reflexivity|]. right.
    set (p' := cmin X (uc (nkey a)) (uc (nkey b))) in *.
    assert (Q : ceqb p' (uc (nkey a)) = true) by (unfold p', cmin; ifg; cord).
    exists p', (L1 ++ [a]), L2, (R1 ++ [b]), R2. split; [|cbn; lia].
    split; [rewrite <- app_assoc; auto|]. split; [rewrite <- app_assoc; auto|]. cbn [c_left c_right c_result].
    split; auto. split; auto. split; [apply ok_p'|]. split.
    { rewrite El in Sl. eapply below_snoc; eauto. cord. }
    split. { rewrite Er in Sr. eapply below_snoc; eauto. cord. }
    split; auto.
    rewrite El in Sl. rewrite Er in Sr. apply (srt_mid X k HX) in Sl, Sr.
    destruct Sl as (_ & _ & _ & _ & A1). destruct Sr as (_ & _ & _ & _ & A2).
    split; eapply above_ge; eauto; cord.
Qed.

Lemma Good_restrict n c s f : 
  (is_unrelated (restrict (c_result c) s) = true -> Final (restrict (c_result c) s)) ->
  Good n (f (c_with c (restrict (c_result c) s))) -> Good n (c_restrict c s f).
Proof.
  intros H1 H2. unfold c_restrict. cbn [c_result c_with]. destruct (is_unrelated (restrict (c_result c) s)) eqn:E; auto.
  do 2 eexists. split; [reflexivity|]. left. split; auto.
Qed.

(** left exhausted while right is not: left can only be a subset *)
Lemma end_left p L1 R1 b R2 s : nodes l = L1 -> nodes r = R1 ++ b :: R2 -> ok p -> below k L1 p -> below k R1 p ->
  cltb p (uc (nkey b)) = true -> Bits p s -> Final (restrict s r_subset).
Proof.
  intros El Er Op Bl Br Pb [H1 H2]. unfold restrict, r_subset. cbn [fst snd].
  assert (Z : forall x, cltb (pt x) p = false -> vr k (nodes l) (pt x) = None). { intros x H. rewrite El. eapply vr_below; eauto. }
  split; cbn [fst snd]; rewrite ?andb_true_r, ?andb_false_r.
  - rewrite H1. unfold Upto. split; auto. intros H x. destruct (cltb (pt x) p) eqn:E; auto. unfold subx. rewrite Z; auto.
  - split; [discriminate|]. intros H. exfalso.
    pose proof (ne_b R1 R2 b Er) as Nb. unfold Seg.ne in *.
    destruct (cut_gap X k HX (cmax X p (lc (nkey b))) (uc (nkey b))) as (x & G1 & G2).
    { apply ok_max; auto; apply lc_ok. } { apply uc_ok. } { unfold cmax; ifg; auto. }
    assert (cltb (pt x) p = false) as G3 by (unfold cmax in G1; revert G1; ifg; intros; cord).
    assert (cltb (pt x) (lc (nkey b)) = false) as G4 by (unfold cmax in G1; revert G1; ifg; intros; cord).
    specialize (H x). unfold supx in H. rewrite (region r R1 b R2 p (pt x) Hr Er Br G3 G2), G4, Z in H; auto. discriminate.
Qed.
Lemma end_right p L1 a L2 R1 s : nodes l = L1 ++ a :: L2 -> nodes r = R1 -> ok p -> below k L1 p -> below k R1 p ->
  cltb p (uc (nkey a)) = true -> Bits p s -> Final (restrict s r_superset).
Proof.
  intros El Er Op Bl Br Pb [H1 H2]. unfold restrict, r_superset. cbn [fst snd].
  assert (Z : forall x, cltb (pt x) p = false -> vr k (nodes r) (pt x) = None). { intros x H. rewrite Er. eapply vr_below; eauto. }
  split; cbn [fst snd]; rewrite ?andb_true_r, ?andb_false_r.
  - split; [discriminate|]. intros H. exfalso.
    pose proof (ne_a L1 L2 a El) as Na. unfold Seg.ne in *.
    destruct (cut_gap X k HX (cmax X p (lc (nkey a))) (uc (nkey a))) as (x & G1 & G2).
    { apply ok_max; auto; apply lc_ok. } { apply uc_ok. } { unfold cmax; ifg; auto. }
    assert (cltb (pt x) p = false) as G3 by (unfold cmax in G1; revert G1; ifg; intros; cord).
    assert (cltb (pt x) (lc (nkey a)) = false) as G4 by (unfold cmax in G1; revert G1; ifg; intros; cord).
    specialize (H x). unfold subx in H. rewrite (region l L1 a L2 p (pt x) Hl El Bl G3 G2), G4, Z in H; auto. discriminate.
  - rewrite H2. unfold Upto. split; auto. intros H x. destruct (cltb (pt x) p) eqn:E; auto. unfold supx. rewrite Z; auto.
Qed.

(** the position lower_bound jumps to *)
Lemma jump {U} (t : tree (D X) U) a L1 L2 (b : I) p : inv k t -> nodes t = L1 ++ a :: L2 -> below k L1 p -> cltb (lc b) p = false -> ne b -> cltb (lc b) (uc (nkey a)) = false ->
  exists L' L'', nodes t = L' ++ L'' /\ lower_bound X k t b = Ok (@hd_it X U L'') /\ below k L' (lc b) /\ overl k b L'' /\ length L'' <= length L2.
Proof.
  intros [_ S] E B P Nb H.
  destruct (decomp X k HX b (nodes t) S Nb) as (A1 & A2 & A3 & E' & B1 & B2 & B3).
  pose proof S as S'. rewrite E', srt_app in S'. destruct S' as (_ & S' & _).
  assert (O : overl k b (A2 ++ A3)) by (apply overl_MR; auto).
  exists A1, (A2 ++ A3). conjs; auto. { eapply lower_bound_at; eauto. }
  assert (length L1 < length A1).
  { destruct (Nat.le_gt_cases (length A1) (length L1)) as [Hle|]; auto. exfalso.
    rewrite E in E'. 
    assert (In a (A2 ++ A3)).
    { clear -E' Hle. revert A1 E' Hle. induction L1 as [|y L1 IH]; intros A1 E' Hle.
      - destruct A1; [|cbn in Hle; lia]. cbn in E'. rewrite <- E'. left; auto.
      - destruct A1; cbn in E'; [rewrite <- E'; right; rewrite in_app_iff; right; left; auto|]. inversion E'. apply (IH A1); auto. cbn in Hle. lia. }
    apply in_app_iff in H0. destruct H0 as [H0|H0].
    - rewrite Forall_forall in B2. apply B2 in H0. destruct H0. congruence.
    - unfold above in B3. rewrite Forall_forall in B3. apply B3 in H0. unfold Seg.ne in *.
      pose proof (srt_nes X k _ S) as Hn. unfold nes in Hn. rewrite Forall_forall in Hn.
      assert (ne (nkey a)) by (apply Hn; rewrite E, in_app_iff; cbn; auto). unfold Seg.ne in *. cord. }
  rewrite E in E'. apply (f_equal (@List.length _)) in E'. rewrite !app_length in *. cbn in E'. lia.
Qed.


Lemma skip_left p L1 a L2 R1 b R2 s q : nodes l = L1 ++ a :: L2 -> nodes r = R1 ++ b :: R2 -> ok p -> below k L1 p -> below k R1 p ->
  cltb (lc (nkey a)) p = false -> cltb q (uc (nkey a)) = false -> cltb (lc (nkey b)) q = false -> Bits p s -> Bits q (restrict s r_superset).
Proof.
  intros El Er Op Bl Br Pa Qa Qb [H1 H2]. unfold restrict, r_superset. cbn [fst snd].
  pose proof (ne_a L1 L2 a El) as Na. pose proof (ne_b R1 R2 b Er) as Nb. unfold Seg.ne in *.
  assert (Z : forall x, cltb (pt x) p = false -> cltb (pt x) q = true -> vr k (nodes r) (pt x) = None).
  { intros x G1 G2. rewrite (region r R1 b R2 p (pt x) Hr Er Br G1) by cord. ifg; auto. exfalso. cord. }
  split; cbn [fst snd]; rewrite ?andb_true_r, ?andb_false_r.
  - split; [discriminate|]. intros H. exfalso.
    destruct (cut_gap X k HX (lc (nkey a)) (uc (nkey a))) as (x & G1 & G2); auto. { apply lc_ok. } { apply uc_ok. }
    assert (G3 : cltb (pt x) p = false) by cord. assert (G4 : cltb (pt x) q = true) by cord.
    specialize (H x G4). unfold subx in H. rewrite (region l L1 a L2 p (pt x) Hl El Bl G3 G2), G1, Z in H; auto. discriminate.
  - rewrite H2. unfold Upto. split.
    + intros H x G. destruct (cltb (pt x) p) eqn:E; auto. unfold supx. rewrite Z; auto.
    + intros H x G. apply H. cord.
Qed.
Lemma skip_right p L1 a L2 R1 b R2 s q : nodes l = L1 ++ a :: L2 -> nodes r = R1 ++ b :: R2 -> ok p -> below k L1 p -> below k R1 p ->
  cltb (lc (nkey b)) p = false -> cltb q (uc (nkey b)) = false -> cltb (lc (nkey a)) q = false -> Bits p s -> Bits q (restrict s r_subset).
Proof.
  intros El Er Op Bl Br Pa Qb Qa [H1 H2]. unfold restrict, r_subset. cbn [fst snd].
  pose proof (ne_a L1 L2 a El) as Na. pose proof (ne_b R1 R2 b Er) as Nb. unfold Seg.ne in *.
  assert (Z : forall x, cltb (pt x) p = false -> cltb (pt x) q = true -> vr k (nodes l) (pt x) = None).
  { intros x G1 G2. rewrite (region l L1 a L2 p (pt x) Hl El Bl G1) by cord. ifg; auto. exfalso. cord. }
  split; cbn [fst snd]; rewrite ?andb_true_r, ?andb_false_r.
  - rewrite H1. unfold Upto. split.
    + intros H x G. destruct (cltb (pt x) p) eqn:E; auto. unfold subx. rewrite Z; auto.
    + intros H x G. apply H. cord.
  - split; [discriminate|]. intros H. exfalso.
    destruct (cut_gap X k HX (lc (nkey b)) (uc (nkey b))) as (x & G1 & G2); auto. { apply lc_ok. } { apply uc_ok. }
    assert (G3 : cltb (pt x) p = false) by cord. assert (G4 : cltb (pt x) q = true) by cord.
    specialize (H x G4). unfold supx in H. rewrite (region r R1 b R2 p (pt x) Hr Er Br G3 G2), G1, Z in H; auto. discriminate.
Qed.

Ltac bt := repeat match goal with H : _ && _ = true |- _ => apply andb_true_iff in H; destruct H end;
  repeat (apply andb_true_iff; split); auto; try discriminate.
Ltac bg := repeat match goal with
  | |- context [fst (c_result ?c)] => generalize (fst (c_result c))
  | |- context [snd (c_result ?c)] => generalize (snd (c_result c))
  | |- context [fst ?g] => is_var g; generalize (fst g)
  | |- context [snd ?g] => is_var g; generalize (snd g)
  | |- context [fsub ?a ?b] => generalize (fsub a b)
  | |- context [fsup ?a ?b] => generalize (fsup a b)
  | |- context [cltb ?a ?b] => generalize (cltb a b)
  end; intros; bcases.
Lemma restrict_ff s : restrict (restrict s r_superset) r_subset = r_unrelated /\ restrict (restrict s r_subset) r_superset = r_unrelated.
Proof. destruct s as [[] []]; auto. Qed.

Lemma codomain_at n L1 L2 R1 R2 a b (cond : I -> I -> bool) c f :
  nodes l = L1 ++ a :: L2 -> nodes r = R1 ++ b :: R2 -> c_left c = Some (nid a) -> c_right c = Some (nid b) ->
  let g := if cond (nkey a) (nkey b) then (fsub (nval a) (nval b), fsup (nval a) (nval b)) else (true, true) in
  (is_unrelated (restrict (c_result c) g) = true -> Final (restrict (c_result c) g)) ->
  Good n (f (c_with c (restrict (c_result c) g))) ->
  Good n (c_codomain X co l r cond c f).
Proof.
  intros El Er Cl Cr g H1 H2. unfold c_codomain.
  assert (Z : forall s : incl, restrict s (true, true) = s) by (intros [[] []]; auto).
  assert (Zc : c_with c (c_result c) = c) by (destruct c; auto).
  unfold fsub, fsup in *. destruct co as [fc|].
  - rewrite Cl, Cr, (deref_at X l L1 a L2), (deref_at X r R1 b R2) by (auto; apply Hl || apply Hr). cbn [bind].
    destruct (cond (nkey a) (nkey b)).
    + apply Good_restrict.
      * unfold g in H1. destruct (fc (nval a) (nval b)); auto.
      * unfold g in H2. destruct (fc (nval a) (nval b)); auto.
    + unfold g in H2. rewrite Z, Zc in H2. auto.
  - unfold g in H2. assert (E : (if cond (nkey a) (nkey b) then (true, true) else (true, true)) = (true, true)) by (destruct (cond _ _); auto).
    rewrite E, Z, Zc in H2. auto.
Qed.

Lemma next_both_at c p L1 L2 R1 R2 : Inv Nextboth c p L1 L2 R1 R2 -> Good (length L2 + length R2) (c_next_both X k co l r c).
Proof.
  intros (El & Er & Cl & Cr & Op & Bl & Br & Bs & Al & Ar). unfold c_next_both, end_. rewrite Cl, Cr.
  pose proof Hl as [Wl Sl]. pose proof Hr as [Wr Sr].
  destruct L2 as [|a L2], R2 as [|b R2]; cbn [Tree.hd_it iter_eqb andb].
  - do 2 eexists. split; [reflexivity|]. left. split; auto. rewrite app_nil_r in *. destruct Bs as [B1 B2]. split; [rewrite B1|rewrite B2]; unfold Upto; split; auto.
    + intros H x. destruct (cltb (pt x) p) eqn:E; auto. unfold subx. rewrite El, (vr_below X k HX L1 p) by auto. auto.
    + intros H x. destruct (cltb (pt x) p) eqn:E; auto. unfold supx. rewrite Er, (vr_below X k HX R1 p) by auto. auto.
  - do 2 eexists. split; [reflexivity|]. left. split; auto. cbn [c_with c_result].
    apply above_cons in Ar. pose proof (ne_b R1 R2 b Er). unfold Seg.ne in *. rewrite app_nil_r in *.
    eapply end_left; eauto. destruct Ar. cord.
  - do 2 eexists. split; [reflexivity|]. left. split; auto. cbn [c_with c_result].
    apply above_cons in Al. pose proof (ne_a L1 L2 a El). unfold Seg.ne in *. rewrite app_nil_r in *.
    eapply end_right; eauto. destruct Al. cord.
  - cbn [iter_eqb]. rewrite (key_at X l L1 a L2), (key_at X r R1 b R2) by auto. cbn [bind].
    pose proof (ne_a L1 L2 a El) as Na. pose proof (ne_b R1 R2 b Er) as Nb.
    apply above_cons in Al, Ar. destruct Al as [Al _]. destruct Ar as [Ar _].
    rewrite !(exclusive_less_cut X k HX) by (apply (ne_iff X k HX); auto).
    unfold Seg.ne in *.
    destruct (cltb (lc (nkey b)) (uc (nkey a))) eqn:E1; cbn [negb]; [destruct (cltb (lc (nkey a)) (uc (nkey b))) eqn:E2; cbn [negb]|].
    + (* overlap *)
      assert (Pa : cltb p (uc (nkey a)) = true) by cord. assert (Pb : cltb p (uc (nkey b)) = true) by cord.
      pose proof (reg_bits L1 L2 R1 R2 a b p El Er Op Bl Br Pa Pb _ Bs) as B'.
      assert (Sb : subreg p a b = negb (cltb (lc (nkey a)) (lc (nkey b))) && fsub (nval a) (nval b)).
      { unfold subreg. rewrite E2. cbn [negb orb]. f_equal. f_equal. unfold cmax. ifg; cord. }
      assert (Sp : supreg p a b = negb (cltb (lc (nkey b)) (lc (nkey a))) && fsup (nval a) (nval b)).
      { unfold supreg. rewrite E1. cbn [negb orb]. f_equal. f_equal. unfold cmax. ifg; cord. }
      rewrite Sb, Sp in B'.
      rewrite !(lower_less_cut X k HX) by (apply nonempty_edge; auto; apply (ne_iff X k HX); auto).
      apply (codomain_at _ L1 L2 R1 R2 a b); auto; cbn match.
      { intros U. eapply Bits_less; [exact B'|auto|..]; cbn [fst snd restrict]; intros H; bt. }
      destruct (cltb (lc (nkey a)) (lc (nkey b))) eqn:E3; [|destruct (cltb (lc (nkey b)) (lc (nkey a))) eqn:E4].
      * apply Good_restrict.
        { intros U. eapply Bits_less; [exact B'|auto|..]; cbn [fst snd restrict c_with c_result r_superset]; intros H; bt. }
        apply (proceed_at L1 L2 R1 R2 a b p _ (c_result c)); auto.
        cbn [c_with c_result]. rewrite Sb, Sp. unfold restrict, r_superset. cbn [fst snd]. 
        assert (cltb (lc (nkey b)) (lc (nkey a)) = false) as -> by cord. f_equal; bg.
      * apply Good_restrict.
        { intros U. eapply Bits_less; [exact B'|auto|..]; cbn [fst snd restrict c_with c_result r_subset]; intros H; bt. }
        apply (proceed_at L1 L2 R1 R2 a b p _ (c_result c)); auto.
        cbn [c_with c_result]. rewrite Sb, Sp. unfold restrict, r_subset. cbn [fst snd]. f_equal; bg.
      * apply (proceed_at L1 L2 R1 R2 a b p _ (c_result c)); auto.
        cbn [c_with c_result]. rewrite Sb, Sp. unfold restrict. cbn [fst snd]. f_equal; bg.
    + (* right before left *)
      apply Good_restrict.
      { intros U. eapply Bits_ff; [|exact U]. eapply (skip_right p L1 a L2 R1 b R2 _ (uc (nkey b))); eauto; cord. }
      destruct (jump r b R1 R2 (nkey a) p) as (R' & R'' & Er' & -> & B1 & O1 & Len); auto.
      cbn [bind]. destruct R'' as [|b' R'']; cbn [Tree.hd_it iter_eqb].
      * do 2 eexists. split; [reflexivity|]. left. split; auto. cbn [c_with c_result].
        rewrite <- (proj2 (restrict_ff (c_result c))). rewrite app_nil_r in *.
        apply (end_right (lc (nkey a)) L1 a L2 R'); auto. { apply lc_ok. } { eapply below_le; eauto. }
        eapply (skip_right p L1 a L2 R1 b R2 _ (lc (nkey a))); eauto; cord.
      * do 2 eexists. split; [reflexivity|]. right.
        set (q := cmin X (lc (nkey a)) (lc (nkey b'))).
        assert (Nb' : ne (nkey b')) by (eapply ne_b; eauto). unfold Seg.ne in *.
        assert (Inb : In b R').
        { pose proof Er as Er2. rewrite Er' in Er2. assert (Ib : In b (R' ++ b' :: R'')) by (rewrite Er2, in_app_iff; cbn; auto).
          apply in_app_iff in Ib. destruct Ib as [|Ib]; auto. exfalso. cbn [overl] in O1. destruct Ib as [->|Ib]; [cord|].
          rewrite Er' in Sr. apply (srt_mid X k HX) in Sr. destruct Sr as (_ & _ & _ & _ & A). unfold above in A. rewrite Forall_forall in A. apply A in Ib. cord. }
        assert (Qb : cltb q (uc (nkey b)) = false).
        { unfold q, cmin. ifg; [cord|]. rewrite Er', srt_app in Sr. destruct Sr as (_ & _ & Sr). apply Sr; cbn; auto. }
        assert (Qa : cltb (lc (nkey a)) q = false) by (unfold q, cmin; ifg; cord).
        exists q, L1, (a :: L2), R', (b' :: R''). split; [|clear -Len; cbn in *; lia].
        split; auto. split; auto. cbn [c_left c_right c_result c_with]. split; auto. split; auto.
        split. { apply ok_min; apply lc_ok. } split. { eapply below_le; eauto. cord. }
        split. { unfold q, cmin. ifg; auto. rewrite Er' in Sr. apply (srt_mid X k HX) in Sr. tauto. }
        split. { eapply (skip_right p L1 a L2 R1 b R2 _ q); eauto. }
        split. { rewrite El in Sl. apply (srt_mid X k HX) in Sl. destruct Sl as (_ & _ & _ & _ & A). apply above_cons. split; auto. eapply above_ge; eauto. cord. }
        rewrite Er' in Sr. apply (srt_mid X k HX) in Sr. destruct Sr as (_ & _ & _ & _ & A). apply above_cons.
        assert (cltb (lc (nkey b')) q = false) by (unfold q, cmin; ifg; cord). split; auto. eapply above_ge; eauto. cord.
    + (* left before right *)
      apply Good_restrict.
      { intros U. eapply Bits_ff; [|exact U]. eapply (skip_left p L1 a L2 R1 b R2 _ (uc (nkey a))); eauto; cord. }
      destruct (jump l a L1 L2 (nkey b) p) as (L' & L'' & El' & -> & B1 & O1 & Len); auto.
      cbn [bind]. destruct L'' as [|a' L'']; cbn [Tree.hd_it iter_eqb].
      * do 2 eexists. split; [reflexivity|]. left. split; auto. cbn [c_with c_result].
        rewrite <- (proj1 (restrict_ff (c_result c))). rewrite app_nil_r in *.
        apply (end_left (lc (nkey b)) L' R1 b R2); auto. { apply lc_ok. } { eapply below_le; eauto. }
        eapply (skip_left p L1 a L2 R1 b R2 _ (lc (nkey b))); eauto; cord.
      * do 2 eexists. split; [reflexivity|]. right.
        set (q := cmin X (lc (nkey b)) (lc (nkey a'))).
        assert (Na' : ne (nkey a')) by (eapply ne_a; eauto). unfold Seg.ne in *.
        assert (Ina : In a L').
        { pose proof El as El2. rewrite El' in El2. assert (Ib : In a (L' ++ a' :: L'')) by (rewrite El2, in_app_iff; cbn; auto).
          apply in_app_iff in Ib. destruct Ib as [|Ib]; auto. exfalso. cbn [overl] in O1. destruct Ib as [->|Ib]; [cord|].
          rewrite El' in Sl. apply (srt_mid X k HX) in Sl. destruct Sl as (_ & _ & _ & _ & A). unfold above in A. rewrite Forall_forall in A. apply A in Ib. cord. }
        assert (Qb : cltb q (uc (nkey a)) = false).
        { unfold q, cmin. ifg; [cord|]. rewrite El', srt_app in Sl. destruct Sl as (_ & _ & Sl). apply Sl; cbn; auto. }
        assert (Qa : cltb (lc (nkey b)) q = false) by (unfold q, cmin; ifg; cord).
        exists q, L', (a' :: L''), R1, (b :: R2). split; [|clear -Len; cbn in *; lia].
        split; auto. split; auto. cbn [c_left c_right c_result c_with]. split; auto. split; auto.
        split. { apply ok_min; apply lc_ok. }
        split. { unfold q, cmin. ifg; auto. rewrite El' in Sl. apply (srt_mid X k HX) in Sl. tauto. }
        split. { eapply below_le; eauto. cord. }
        split. { eapply (skip_left p L1 a L2 R1 b R2 _ q); eauto. }
        split.
        -- rewrite El' in Sl. apply (srt_mid X k HX) in Sl. destruct Sl as (_ & _ & _ & _ & A). apply above_cons.
           assert (cltb (lc (nkey a')) q = false) by (unfold q, cmin; ifg; cord). split; auto. eapply above_ge; eauto. cord.
        -- rewrite Er in Sr. apply (srt_mid X k HX) in Sr. destruct Sr as (_ & _ & _ & _ & A). apply above_cons. split; auto. eapply above_ge; eauto. cord.
Qed.

Lemma intersects_ne a b : ne a -> ne b -> intersects X k a b = cltb (lc b) (uc a) && cltb (lc a) (uc b).
Proof.
  intros Na Nb. pose proof (intersects_spec X k HX a b) as H.
  destruct (cltb (lc b) (uc a) && cltb (lc a) (uc b)) eqn:E.
  - apply H. apply andb_true_iff in E. destruct E as [E1 E2]. unfold Seg.ne in *.
    destruct (cut_gap X k HX (cmax X (lc a) (lc b)) (cmin X (uc a) (uc b))) as (x & G1 & G2).
    { apply ok_max; apply lc_ok. } { apply ok_min; apply uc_ok. } { unfold cmax, cmin. repeat ifg; auto. }
    exists x. rewrite !(mem_cut X k HX). unfold cmax in G1. unfold cmin in G2. revert G1 G2. repeat ifg; intros; conjs; cord.
  - destruct (intersects X k a b); auto. exfalso. destruct (proj1 H eq_refl) as (x & M1 & M2). rewrite !(mem_cut X k HX) in M1, M2.
    destruct M1, M2. apply andb_false_iff in E. destruct E; cord.
Qed.

Lemma next_left_at c p L1 L2 R1 R2 : Inv Nextleft c p L1 L2 R1 R2 -> Good (length L2 + length R2) (c_next_left X k co l r c).
Proof.
  intros (El & Er & Cl & Cr & Op & Bl & Br & Bs & (L0 & pl & -> & Cp & Pe) & b & R2' & -> & Pb & Hb). unfold c_next_left, end_. rewrite Cl, Cr, Cp.
  pose proof Hl as [Wl Sl]. pose proof Hr as [Wr Sr].
  destruct L2 as [|a L2]; cbn [Tree.hd_it iter_eqb].
  - do 2 eexists. split; [reflexivity|]. left. split; auto. cbn [c_with c_result]. rewrite app_nil_r in *. eapply end_left; eauto.
  - cbn [iter_eqb]. rewrite (key_at X l L0 pl (a :: L2)), (key_at X l (L0 ++ [pl]) a L2), (key_at X r R1 b R2') by (auto; rewrite El, <- app_assoc; auto). cbn [bind].
    pose proof (ne_a _ L2 a El) as Na. pose proof (ne_b R1 R2' b Er) as Nb.
    assert (Np : ne (nkey pl) /\ cltb (lc (nkey a)) (uc (nkey pl)) = false).
    { rewrite El in Sl. rewrite srt_app in Sl. destruct Sl as (S1 & _ & S2). split. { apply (srt_mid X k HX) in S1. tauto. } apply S2; cbn; auto. apply in_app_iff. cbn; auto. }
    destruct Np as [Np Pa].
    rewrite (touches_ne X k HX) by auto. unfold Seg.ne in *.
    assert (Pa' : cltb p (uc (nkey a)) = true) by cord. assert (Al : cltb (lc (nkey a)) p = false) by cord.
    pose proof (reg_bits _ L2 R1 R2' a b p El Er Op Bl Br Pa' Pb _ Bs) as B'.
    set (i := cltb (lc (nkey b)) (uc (nkey a)) && cltb (lc (nkey a)) (uc (nkey b))).
    set (g := if i then (fsub (nval a) (nval b), fsup (nval a) (nval b)) else (true, true)).
    set (gap := cltb p (lc (nkey a)) && cltb (lc (nkey b)) (lc (nkey a))).
    assert (Sb : fst (c_result c) && subreg p a b = fst (c_result c) && fst g).
    { destruct (fst (c_result c)) eqn:F; auto. cbn [andb]. unfold subreg, g, i.
      destruct (cltb p (lc (nkey b))) eqn:E1. { specialize (Hb eq_refl). discriminate. }
      assert (cltb (lc (nkey b)) (uc (nkey a)) = true) as -> by cord.
      destruct (cltb (lc (nkey a)) (uc (nkey b))) eqn:E2; cbn [negb orb andb fst]; auto.
      replace (cltb (cmax X p (lc (nkey a))) (lc (nkey b))) with false; auto. unfold cmax. ifg; cord. }
    assert (Sp : supreg p a b = negb gap && snd g).
    { unfold supreg, g, i, gap.
      destruct (cltb (lc (nkey b)) (uc (nkey a))) eqn:E1; cbn [negb orb andb snd].
      - destruct (cltb (lc (nkey a)) (uc (nkey b))) eqn:E2; cbn [negb orb andb snd].
        + f_equal. f_equal. unfold cmax. ifg; cord.
        + replace (cltb (cmax X p (lc (nkey b))) (lc (nkey a))) with true by (unfold cmax; ifg; cord).
          replace (cltb p (lc (nkey a)) && cltb (lc (nkey b)) (lc (nkey a))) with true by cord. auto.
      - replace (cltb p (lc (nkey a)) && cltb (lc (nkey b)) (lc (nkey a))) with false by cord. auto. }
    rewrite Sb, Sp in B'. 
    assert (K : forall c', c_left c' = Some (nid a) -> c_right c' = Some (nid b) -> c_result c' = (fst (c_result c), snd (c_result c) && negb gap) ->
       Good (length (a :: L2) + length (b :: R2')) (c_codomain X co l r (intersects X k) c' (c_proceed X k l r))).
    { intros c' C1 C2 C3. apply (codomain_at _ (L0 ++ [pl]) L2 R1 R2' a b); auto; rewrite intersects_ne by auto; fold i; fold g; rewrite C3.
      - intros U. eapply Bits_less; [exact B'|auto|..]; cbn [fst snd restrict]; intros H; bt.
      - apply (proceed_at (L0 ++ [pl]) L2 R1 R2' a b p _ (c_result c)); auto.
        cbn [c_with c_result]. rewrite Sb, Sp. unfold restrict. cbn [fst snd]. f_equal; bg. }
    rewrite (lower_less_cut X k HX) by (apply nonempty_edge; auto; apply (ne_iff X k HX); auto).
    destruct (ceqb (uc (nkey pl)) (lc (nkey a))) eqn:E1; cbn [negb].
    + apply K; auto. replace gap with false by (unfold gap; clear -HX Pe Pa E1 Al; cord). destruct (c_result c) as [[] []]; reflexivity.
    + destruct (cltb (lc (nkey b)) (lc (nkey a))) eqn:E2.
      * apply Good_restrict.
        { intros U. eapply Bits_less; [exact B'|auto|..]; cbn [fst snd restrict r_subset]; intros H; try (bt; fail).
          exfalso. replace gap with true in H by (unfold gap; clear -HX Pe Pa E1 E2 Al; cord). cbn [negb andb] in H; rewrite ?andb_false_r in H; discriminate. }
        apply K; auto. cbn [c_with c_result restrict r_subset fst snd]. replace gap with true by (unfold gap; clear -HX Pe Pa E1 E2 Al; cord). destruct (c_result c) as [[] []]; reflexivity.
      * apply K; auto. replace gap with false by (unfold gap; clear -HX Pe Pa E1 E2 Al; cord). destruct (c_result c) as [[] []]; reflexivity.
Qed.

Lemma next_right_at c p L1 L2 R1 R2 : Inv Nextright c p L1 L2 R1 R2 -> Good (length L2 + length R2) (c_next_right X k co l r c).
Proof.
  intros (El & Er & Cl & Cr & Op & Bl & Br & Bs & (R0 & pr & -> & Cp & Pe) & a & L2' & -> & Pa' & Ha). unfold c_next_right, end_. rewrite Cl, Cr, Cp.
  pose proof Hl as [Wl Sl]. pose proof Hr as [Wr Sr].
  destruct R2 as [|b R2]; cbn [Tree.hd_it iter_eqb].
  - do 2 eexists. split; [reflexivity|]. left. split; auto. cbn [c_with c_result]. rewrite app_nil_r in *. eapply end_right; eauto.
  - cbn [iter_eqb]. rewrite (key_at X r R0 pr (b :: R2)), (key_at X r (R0 ++ [pr]) b R2), (key_at X l L1 a L2') by (auto; rewrite Er, <- app_assoc; auto). cbn [bind].
    pose proof (ne_a _ L2' a El) as Na. pose proof (ne_b _ R2 b Er) as Nb.
    assert (Np : ne (nkey pr) /\ cltb (lc (nkey b)) (uc (nkey pr)) = false).
    { rewrite Er in Sr. rewrite srt_app in Sr. destruct Sr as (S1 & _ & S2). split. { apply (srt_mid X k HX) in S1. tauto. } apply S2; cbn; auto. apply in_app_iff. cbn; auto. }
    destruct Np as [Np Pb].
    rewrite (touches_ne X k HX) by auto. unfold Seg.ne in *.
    assert (Pb' : cltb p (uc (nkey b)) = true) by cord. assert (Al : cltb (lc (nkey b)) p = false) by cord.
    pose proof (reg_bits L1 L2' _ R2 a b p El Er Op Bl Br Pa' Pb' _ Bs) as B'.
    set (i := cltb (lc (nkey b)) (uc (nkey a)) && cltb (lc (nkey a)) (uc (nkey b))).
    set (g := if i then (fsub (nval a) (nval b), fsup (nval a) (nval b)) else (true, true)).
    set (gap := cltb p (lc (nkey b)) && cltb (lc (nkey a)) (lc (nkey b))).
    assert (Sb : snd (c_result c) && supreg p a b = snd (c_result c) && snd g).
    { destruct (snd (c_result c)) eqn:F; auto. cbn [andb]. unfold supreg, g, i.
      destruct (cltb p (lc (nkey a))) eqn:E1. { specialize (Ha eq_refl). discriminate. }
      assert (cltb (lc (nkey a)) (uc (nkey b)) = true) as -> by cord.
      destruct (cltb (lc (nkey b)) (uc (nkey a))) eqn:E2; cbn [negb orb andb snd]; auto.
      replace (cltb (cmax X p (lc (nkey b))) (lc (nkey a))) with false; auto. unfold cmax. ifg; cord. }
    assert (Sp : subreg p a b = negb gap && fst g).
    { unfold subreg, g, i, gap.
      destruct (cltb (lc (nkey a)) (uc (nkey b))) eqn:E1; cbn [negb orb andb fst].
      - destruct (cltb (lc (nkey b)) (uc (nkey a))) eqn:E2; cbn [negb orb andb fst].
        + f_equal. f_equal. unfold cmax. ifg; cord.
        + replace (cltb (cmax X p (lc (nkey a))) (lc (nkey b))) with true by (unfold cmax; ifg; cord).
          replace (cltb p (lc (nkey b)) && cltb (lc (nkey a)) (lc (nkey b))) with true by cord. auto.
      - rewrite andb_false_r. replace (cltb p (lc (nkey b)) && cltb (lc (nkey a)) (lc (nkey b))) with false by cord. auto. }
    rewrite Sb, Sp in B'. 
    assert (K : forall c', c_left c' = Some (nid a) -> c_right c' = Some (nid b) -> c_result c' = (fst (c_result c) && negb gap, snd (c_result c)) ->
       Good (length (a :: L2') + length (b :: R2)) (c_codomain X co l r (intersects X k) c' (c_proceed X k l r))).
    { intros c' C1 C2 C3. apply (codomain_at _ L1 L2' (R0 ++ [pr]) R2 a b); auto; rewrite intersects_ne by auto; fold i; fold g; rewrite C3.
      - intros U. eapply Bits_less; [exact B'|auto|..]; cbn [fst snd restrict]; intros H; bt.
      - apply (proceed_at L1 L2' (R0 ++ [pr]) R2 a b p _ (c_result c)); auto.
        cbn [c_with c_result]. rewrite Sb, Sp. unfold restrict. cbn [fst snd]. f_equal; bg. }
    rewrite (lower_less_cut X k HX) by (apply nonempty_edge; auto; apply (ne_iff X k HX); auto).
    destruct (ceqb (uc (nkey pr)) (lc (nkey b))) eqn:E1; cbn [negb].
    + apply K; auto. replace gap with false by (unfold gap; clear -HX Pe Pb E1 Al; cord). destruct (c_result c) as [[] []]; reflexivity.
    + destruct (cltb (lc (nkey a)) (lc (nkey b))) eqn:E2.
      * apply Good_restrict.
        { intros U. eapply Bits_less; [exact B'|auto|..]; cbn [fst snd restrict r_superset]; intros H; try (bt; fail).
          exfalso. replace gap with true in H by (unfold gap; clear -HX Pe Pb E1 E2 Al; cord). cbn [negb andb] in H; rewrite ?andb_false_r in H; discriminate. }
        apply K; auto. cbn [c_with c_result restrict r_superset fst snd]. replace gap with true by (unfold gap; clear -HX Pe Pb E1 E2 Al; cord). destruct (c_result c) as [[] []]; reflexivity.
      * apply K; auto. replace gap with false by (unfold gap; clear -HX Pe Pb E1 E2 Al; cord). destruct (c_result c) as [[] []]; reflexivity.
Qed.

Lemma c_loop_at : forall fuel s c p L1 L2 R1 R2, Inv s c p L1 L2 R1 R2 -> length L2 + length R2 < fuel ->
  exists b, c_loop X k co fuel l r c s = Ok b /\ Final b.
Proof.
  induction fuel as [|fuel IH]; intros s c p L1 L2 R1 R2 H Hf; [lia|].
  assert (G : Good (length L2 + length R2) (match s with Nextboth => c_next_both X k co l r c | Nextleft => c_next_left X k co l r c | _ => c_next_right X k co l r c end)).
  { destruct s; eauto using next_both_at, next_left_at, next_right_at. destruct H as (_&_&_&_&_&_&_&_&[]). }
  destruct G as (c' & s' & E & [[-> F]|(p' & L1' & L2' & R1' & R2' & H' & Hlt)]).
  - destruct s; cbn [c_loop]; try rewrite E; cbn [bind]; try (exists (c_result c'); split; auto; destruct fuel; reflexivity). destruct H as (_&_&_&_&_&_&_&_&[]).
  - destruct s; cbn [c_loop]; try rewrite E; cbn [bind]; try (eapply IH; eauto; lia). destruct H as (_&_&_&_&_&_&_&_&[]).
Qed.

Theorem subset_compare_at : exists b, subset_compare X k co l r = Ok b /\ Final b.
Proof.
  unfold subset_compare, begin_, end_.
  assert (Q : (nodes l = [] /\ nodes r = []) \/ exists p, ok p /\ above k (nodes l) p /\ above k (nodes r) p).
  { destruct Hl as [_ Sl], Hr as [_ Sr].
    assert (A1 : forall U (t : list (node (D X) U)) n, srt k (n :: t) -> above k (n :: t) (lc (nkey n))).
    { intros U t n (N & F & _). apply above_cons. split. { cord. } unfold Seg.ne in *. eapply (above_ge X k HX); [exact F|]. cord. }
    destruct (nodes l) as [|a L]; [destruct (nodes r) as [|b R]; [auto|]|].
    - right. exists (lc (nkey b)). conjs; auto. { apply lc_ok. } { apply above_nil. }
    - destruct (nodes r) as [|b R].
      + right. exists (lc (nkey a)). conjs; auto. { apply lc_ok. } { apply above_nil. }
      + right. exists (cmin X (lc (nkey a)) (lc (nkey b))). conjs.
        * apply ok_min; apply lc_ok.
        * eapply (above_ge X k HX); [apply A1; auto|]. unfold cmin. ifg; cord.
        * eapply (above_ge X k HX); [apply A1; auto|]. unfold cmin. ifg; cord. }
  destruct Q as [[E1 E2]|(p & Op & A1 & A2)].
  - rewrite E1, E2. cbn. eexists. split; [reflexivity|]. split; cbn; split; auto; intros _ x; unfold subx, supx; rewrite E1, E2; auto.
  - apply (c_loop_at _ Nextboth _ p [] (nodes l) [] (nodes r)); [|cbn; lia].
    split; auto. split; auto. split; auto. split; auto. split; auto. split. { apply below_nil. } split. { apply below_nil. }
    split; auto. split; cbn [fst snd c_result r_equal]; split; auto; intros _ x Hx; unfold subx, supx.
    + rewrite (vr_above X k HX (nodes l) p) by auto. auto.
    + rewrite (vr_above X k HX (nodes r) p) by auto. auto.
Qed.
End ContCompare.
