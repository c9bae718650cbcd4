(** Element containers: containment, comparison and intersection tests. *)
From Verif Require Import ElemSpec ElemFacts ElemOps.
From Coq Require Import Sorted.

Section Query.
Context (X : dom) (HT : strict_total X).
Notation K := (D X).

(* ---------------------------------------------------------------- within *)
Lemma within_loop_spec {V W} (co : V -> W -> bool) (sub : list (K * V)) (super : list (K * W)) : esorted X super ->
  exists b, e_within_loop X co sub super = Ok b /\
    (b = true <-> forall n, In n sub -> exists w, eat X super (fst n) = Some w /\ co (snd n) w = true).
Proof.
  intros S. induction sub as [|n sub IH]; cbn [e_within_loop].
  - eexists. split; [reflexivity|]. split; [intros _ m []|reflexivity].
  - destruct (find_cases X HT super (fst n) S) as [(l1 & w & l2 & E0 & E & A)|(E & A)]; rewrite E.
    + assert (Ev : e_value X super (length l1) = Ok w) by (rewrite E0; apply (value_mid X)). rewrite Ev. cbn [bind]. destruct (co (snd n) w) eqn:Co.
      * destruct IH as (b & Eb & Hb). exists b. split; [exact Eb|]. rewrite Hb. split.
        -- intros H m [<-|Hm]; [eauto|auto].
        -- intros H m Hm. apply H. right. exact Hm.
      * eexists. split; [reflexivity|]. split; [discriminate|]. intros H. destruct (H n (or_introl eq_refl)) as (w' & A' & C'). congruence.
    + eexists. split; [reflexivity|]. split; [discriminate|]. intros H. destruct (H n (or_introl eq_refl)) as (w' & A' & C'). congruence.
Qed.
Lemma within_spec {V W} (co : V -> W -> bool) (sub : list (K * V)) (super : list (K * W)) : esorted X sub -> esorted X super ->
  exists b, e_within X co sub super = Ok b /\
    (b = true <-> forall x v, eat X sub x = Some v -> exists w, eat X super x = Some w /\ co v w = true).
Proof.
  intros S1 S2.
  assert (Q : (forall n, In n sub -> exists w, eat X super (fst n) = Some w /\ co (snd n) w = true) <->
              (forall x v, eat X sub x = Some v -> exists w, eat X super x = Some w /\ co v w = true)).
  { split.
    - intros H x v A. apply (eat_in X HT) in A. exact (H _ A).
    - intros H n Hn. apply H. apply (eat_sorted X HT); [exact S1|]. destruct n; exact Hn. }
  destruct sub as [|a sub].
  { eexists. split; [reflexivity|]. split; [intros _ x v; discriminate|reflexivity]. }
  destruct super as [|b super].
  { eexists. split; [reflexivity|]. split; [discriminate|]. intros H. pose proof (proj2 Q H) as H'; clear H; rename H' into H. destruct (H a (or_introl eq_refl)) as (w & E & _). discriminate. }
  change (e_within X co (a :: sub) (b :: super)) with
    (if (length (b :: super) <? length (a :: sub))%nat then Ok false
     else match e_common_range X (a :: sub) (b :: super) with None => Ok false | Some _ => e_within_loop X co (a :: sub) (b :: super) end).
  destruct (length (b :: super) <? length (a :: sub))%nat eqn:L.
  - eexists. split; [reflexivity|]. split; [discriminate|]. intros H. pose proof (proj2 Q H) as H'; clear H; rename H' into H. exfalso. apply Nat.ltb_lt in L.
    assert (I : List.incl (map fst (a :: sub)) (map fst (b :: super))).
    { intros x Hx. apply in_map_iff in Hx. destruct Hx as (n & <- & Hn). destruct (H n Hn) as (w & E & _). apply (eat_some_key X HT). congruence. }
    apply NoDup_incl_length in I; [|apply (sorted_nodup X HT); exact S1]. rewrite !map_length in I. lia.
  - pose proof (common_range_spec X HT _ _ S1 S2) as R. destruct (e_common_range X (a :: sub) (b :: super)) as [(lwb, upb)|].
    + destruct (within_loop_spec co (a :: sub) (b :: super) S2) as (r & E & H). exists r. split; [exact E|]. rewrite H. exact Q.
    + eexists. split; [reflexivity|]. split; [discriminate|]. intros H. pose proof (proj2 Q H) as H'; clear H; rename H' into H. exfalso.
      apply (R (fst a)); [left; reflexivity|]. apply (eat_some_key X HT). destruct (H a (or_introl eq_refl)) as (w & E & _). congruence.
Qed.

(* ---------------------------------------------------------------- ==, < *)
Lemma eqb_spec {V} (veq : V -> V -> bool) (l r : list (K * V)) : (forall v w, veq v w = true <-> v = w) -> (e_equals X veq l r = true <-> l = r).
Proof.
  intros Hv. unfold e_equals. split.
  - intros H. apply andb_true_iff in H. destruct H as [L H]. apply Nat.eqb_eq in L. revert r L H.
    induction l as [|a l IH]; intros [|b r] L H; try discriminate; [reflexivity|]. cbn [e_equal] in H.
    apply andb_true_iff in H. destruct H as [H H2]. apply andb_true_iff in H. destruct H as [H H1].
    apply (eqb_eq X HT) in H. apply Hv in H1. f_equal; [destruct a, b; cbn in *; congruence|]. apply IH; [cbn in L; lia|exact H2].
  - intros <-. rewrite Nat.eqb_refl. cbn [andb]. induction l as [|a l IH]; [reflexivity|]. cbn [e_equal]. rewrite (eqb_refl X HT), IH.
    rewrite (proj2 (Hv _ _) eq_refl). reflexivity.
Qed.
Definition sto {A} (f : A -> A -> bool) : Prop :=
  (forall a, f a a = false) /\ (forall a b c, f a b = true -> f b c = true -> f a c = true) /\ (forall a b, a = b \/ f a b = true \/ f b a = true).
Lemma lex_sto {A} (f : A -> A -> bool) : sto f -> sto (e_lex f).
Proof.
  intros (I & T & C). assert (AS : forall a b, f a b = true -> f b a = false).
  { intros a b H. destruct (f b a) eqn:E; [|reflexivity]. rewrite <- (I a). symmetry. eauto. }
  split; [|split].
  - induction a as [|a l IH]; cbn; [reflexivity|]. rewrite I. exact IH.
  - induction a as [|a l IH]; intros [|b l'] [|c l'']; cbn; try discriminate; auto.
    destruct (f a b) eqn:AB, (f b c) eqn:BC; intros H1 H2.
    + rewrite (T _ _ _ AB BC). reflexivity.
    + destruct (f c b) eqn:CB; [discriminate|]. destruct (C b c) as [->|[H|H]]; [|congruence|congruence]. rewrite AB. reflexivity.
    + destruct (f b a) eqn:BA; [discriminate|]. destruct (C a b) as [->|[H|H]]; [|congruence|congruence]. rewrite BC. reflexivity.
    + destruct (f b a) eqn:BA; [discriminate|]. destruct (f c b) eqn:CB; [discriminate|].
      destruct (C a b) as [->|[H|H]]; [|congruence|congruence]. destruct (C b c) as [->|[H|H]]; [|congruence|congruence]. rewrite BC. eauto.
  - induction a as [|a l IH]; intros [|b l']; cbn; auto. destruct (f a b) eqn:AB; [auto|]. destruct (f b a) eqn:BA; [auto|].
    destruct (C a b) as [->|[H|H]]; [|congruence|congruence]. destruct (IH l') as [->|H]; auto.
Qed.
Lemma pair_sto {V} (vlt : V -> V -> bool) : sto vlt -> sto (e_pair_less X vlt).
Proof.
  intros (I & T & C). unfold e_pair_less. split; [|split].
  - intros a. rewrite (el_irr X HT), I. reflexivity.
  - intros a b c H1 H2. apply orb_true_iff in H1. apply orb_true_iff in H2. apply orb_true_iff.
    destruct H1 as [H1|H1], H2 as [H2|H2].
    + left. eapply (el_tr X HT); eauto.
    + apply andb_true_iff in H2. destruct H2 as [H2 _]. apply negb_true_iff in H2. left. eapply (lt_le_lt X HT); eauto.
    + apply andb_true_iff in H1. destruct H1 as [H1 _]. apply negb_true_iff in H1. left. eapply (le_lt_lt X HT); eauto.
    + apply andb_true_iff in H1. apply andb_true_iff in H2. destruct H1 as [H1 H3], H2 as [H2 H4]. apply negb_true_iff in H1. apply negb_true_iff in H2.
      destruct (ltb (fst a) (fst c)) eqn:E; [auto|]. right. apply andb_true_iff. split; [|eauto]. apply negb_true_iff.
      destruct (ltb (fst c) (fst a)) eqn:F; [|reflexivity]. pose proof (lt_le_lt X HT _ _ _ F H1). congruence.
  - intros a b. destruct (el_tot X HT (fst a) (fst b)) as [H|[H|H]]; [rewrite H; auto| |rewrite H; auto].
    rewrite H, (el_irr X HT). cbn. destruct (C (snd a) (snd b)) as [E|[E|E]]; [left; destruct a, b; cbn in *; congruence|auto|auto].
Qed.
Lemma unit_sto : sto (fun _ _ : unit => false).
Proof. split; [reflexivity|]. split; [discriminate|]. intros [] []. auto. Qed.

(* ---------------------------------------------------------------- intersects *)
Lemma any_found_spec {V W} (l : list (K * V)) (r : list (K * W)) : esorted X l ->
  (e_any_found X l r = true <-> exists x, In x (map fst l) /\ In x (map fst r)).
Proof.
  intros S. induction r as [|n r IH]; cbn [e_any_found map].
  - split; [discriminate|]. intros (x & _ & []).
  - destruct (find_cases X HT l (fst n) S) as [(l1 & w & l2 & E0 & E & A)|(E & A)]; rewrite E.
    + split; [|reflexivity]. intros _. exists (fst n). split; [apply (eat_some_key X HT); congruence|left; reflexivity].
    + rewrite IH. apply (eat_none X HT) in A. split; [intros (x & H1 & H2); exists x; cbn; auto|].
      intros (x & H1 & [<-|H2]); [contradiction|eauto].
Qed.
Lemma intersects1_spec {V W} (l : list (K * V)) (r : list (K * W)) : esorted X l -> esorted X r ->
  exists b, e_intersects1 X l r = Ok b /\ (b = true <-> exists x, In x (map fst l) /\ In x (map fst r)).
Proof.
  intros S1 S2. unfold e_intersects1. pose proof (common_range_spec X HT r l S2 S1) as R. destruct (e_common_range X r l) as [(lwb, upb)|].
  - destruct R as (_ & _ & l0 & m & l1 & Er & E & D). rewrite E. cbn [bind]. eexists. split; [reflexivity|]. rewrite (any_found_spec l m S1).
    split; intros (x & H1 & H2); exists x; split; auto.
    + rewrite Er, !map_app, !in_app_iff. auto.
    + rewrite Er, !map_app, !in_app_iff in H2. destruct H2 as [H2|[H2|H2]]; [|exact H2|]; apply in_map_iff in H2; destruct H2 as (n & <- & H2);
        exfalso; apply (D n); auto.
  - eexists. split; [reflexivity|]. split; [discriminate|]. intros (x & H1 & H2). exfalso. exact (R x H2 H1).
Qed.
Lemma intersects_spec {V W} (l : list (K * V)) (r : list (K * W)) : esorted X l -> esorted X r ->
  exists b, e_intersects X l r = Ok b /\ (b = true <-> exists x, In x (map fst l) /\ In x (map fst r)).
Proof.
  intros S1 S2. unfold e_intersects. destruct (_ <? _)%nat; [apply intersects1_spec; auto|].
  destruct (intersects1_spec r l S2 S1) as (b & E & H). exists b. split; [exact E|]. rewrite H. split; intros (x & ? & ?); exists x; auto.
Qed.

(* ---------------------------------------------------------------- inclusion_compare *)
Section Inclusion.
Context {V W : Type} (co : option (V -> W -> incl)) (R Q : V -> W -> Prop).
(** [co] decides R and Q; without it the values are not compared *)
Definition co_decides : Prop :=
  match co with
  | Some f => forall v w, (fst (f v w) = true <-> R v w) /\ (snd (f v w) = true <-> Q v w)
  | None => forall v w, R v w /\ Q v w
  end.
Context (Hco : co_decides) (left : list (K * V)) (right : list (K * W)) (SL : esorted X left) (SR : esorted X right).

(** n is R-related to a value of [right] for the same key, and conversely *)
Definition lin (n : K * V) : Prop := exists w, eat X right (fst n) = Some w /\ R (snd n) w.
Definition rin (n : K * W) : Prop := exists v, eat X left (fst n) = Some v /\ Q v (snd n).
(** the result reflects the parts passed so far *)
Definition reflects (r : incl) (l1 : list (K * V)) (r1 : list (K * W)) : Prop :=
  (fst r = true <-> forall n, In n l1 -> lin n) /\ (snd r = true <-> forall n, In n r1 -> rin n).

Lemma not_in_right a l r1 r2 : right = r1 ++ r2 -> (forall n, In n r1 -> ltb (fst n) (fst a) = true) ->
  (forall n, In n r2 -> ltb (fst a) (fst n) = true) -> In a l -> lin a -> False.
Proof.
  intros E A B _ (w & H & _). rewrite E, (eat_app X), (eat_below X HT), (eat_above X HT) in H; [discriminate|exact B|exact A].
Qed.
Lemma not_in_left b r l1 l2 : left = l1 ++ l2 -> (forall n, In n l1 -> ltb (fst n) (fst b) = true) ->
  (forall n, In n l2 -> ltb (fst b) (fst n) = true) -> In b r -> rin b -> False.
Proof.
  intros E A B _ (v & H & _). rewrite E, (eat_app X), (eat_below X HT), (eat_above X HT) in H; [discriminate|exact B|exact A].
Qed.

(** the state: parts passed on both sides; everything passed precedes everything to come *)
Definition st_ok (l1 l2 : list (K * V)) (r1 r2 : list (K * W)) : Prop :=
  left = l1 ++ l2 /\ right = r1 ++ r2 /\
  (forall a b, In a l1 -> In b r2 -> ltb (fst a) (fst b) = true) /\
  (forall a b, In a l2 -> In b r1 -> ltb (fst b) (fst a) = true).

Definition spec (r : incl) : Prop :=
  (fst r = true <-> forall n, In n left -> lin n) /\ (snd r = true <-> forall n, In n right -> rin n).

Lemma nth_at {A} (l1 l2 : list A) : nth_error (l1 ++ l2) (length l1) = match l2 with a :: _ => Some a | [] => None end.
Proof. rewrite nth_error_app2, Nat.sub_diag by lia. destruct l2; reflexivity. Qed.

Lemma joint_step l1 a l2 r1 b r2 r : st_ok l1 (a :: l2) r1 (b :: r2) -> fst a = fst b -> reflects r l1 r1 ->
  exists state r', sc_joint X co left right (length l1) (length r1) r = Ok (state, r') /\
  match state with
  | None => spec r'
  | Some (l, r0) => l = length (l1 ++ [a]) /\ r0 = length (r1 ++ [b]) /\ st_ok (l1 ++ [a]) l2 (r1 ++ [b]) r2 /\ reflects r' (l1 ++ [a]) (r1 ++ [b])
  end.
Proof.
  intros (EL & ER & F1 & F2) Eab (H1 & H2). unfold sc_joint.
  assert (EVl : e_value X left (length l1) = Ok (snd a)) by (unfold e_value; rewrite EL, nth_at; reflexivity).
  assert (EVr : e_value X right (length r1) = Ok (snd b)) by (unfold e_value; rewrite ER, nth_at; reflexivity).
  rewrite EVl, EVr. cbn [bind].
  assert (La : lin a <-> R (snd a) (snd b)).
  { assert (E : eat X right (fst a) = Some (snd b)).
    { apply (eat_sorted X HT); [exact SR|]. rewrite ER, Eab. apply in_or_app. right. left. destruct b; reflexivity. }
    split; [intros (w & E' & H); congruence|intros H; exists (snd b); auto]. }
  assert (Rb : rin b <-> Q (snd a) (snd b)).
  { assert (E : eat X left (fst b) = Some (snd a)).
    { apply (eat_sorted X HT); [exact SL|]. rewrite EL, <- Eab. apply in_or_app. right. left. destruct a; reflexivity. }
    split; [intros (w & E' & H); congruence|intros H; exists (snd a); auto]. }
  assert (ST : st_ok (l1 ++ [a]) l2 (r1 ++ [b]) r2).
  { assert (SL' := SL). assert (SR' := SR). rewrite EL in SL'. rewrite ER in SR'. apply (sorted_app X) in SL', SR'.
    destruct SL' as (_ & SL' & GL), SR' as (_ & SR' & GR). apply (sorted_cons X) in SL', SR'.
    split; [rewrite EL, <- app_assoc; reflexivity|]. split; [rewrite ER, <- app_assoc; reflexivity|]. split.
    - intros c d Hc Hd. apply in_app_or in Hc. destruct Hc as [Hc|[<-|[]]]; [apply F1; [exact Hc|right; exact Hd]|rewrite Eab; apply SR'; exact Hd].
    - intros c d Hc Hd. apply in_app_or in Hd. destruct Hd as [Hd|[<-|[]]]; [apply F2; [right; exact Hc|exact Hd]|rewrite <- Eab; apply SL'; exact Hc]. }
  assert (RF : forall r', (fst r' = true <-> fst r = true /\ R (snd a) (snd b)) -> (snd r' = true <-> snd r = true /\ Q (snd a) (snd b)) ->
    reflects r' (l1 ++ [a]) (r1 ++ [b])).
  { intros r' A B. split.
    - rewrite A, H1, <- La. split; [intros (P & L) n Hn; apply in_app_or in Hn; destruct Hn as [Hn|[<-|[]]]; auto|].
      intros P. split; [intros n Hn; apply P; apply in_or_app; auto|apply P; apply in_or_app; right; left; reflexivity].
    - rewrite B, H2, <- Rb. split; [intros (P & L) n Hn; apply in_app_or in Hn; destruct Hn as [Hn|[<-|[]]]; auto|].
      intros P. split; [intros n Hn; apply P; apply in_or_app; auto|apply P; apply in_or_app; right; left; reflexivity]. }
  assert (LEN : S (length l1) = length (l1 ++ [a]) /\ S (length r1) = length (r1 ++ [b])) by (rewrite !app_length; cbn; lia).
  destruct LEN as [-> ->].
  unfold co_decides in Hco. destruct co as [f|].
  - destruct (Hco (snd a) (snd b)) as [HR HQ]. set (r' := restrict r (f (snd a) (snd b))).
    assert (RF' : reflects r' (l1 ++ [a]) (r1 ++ [b])).
    { apply RF; unfold r', restrict; cbn [fst snd]; rewrite andb_true_iff; tauto. }
    destruct (is_unrelated r') eqn:U.
    + eexists _, _. split; [reflexivity|]. cbn. unfold is_unrelated in U. apply andb_true_iff in U. destruct U as [U1 U2].
      apply negb_true_iff in U1, U2. destruct RF' as [P1 P2]. destruct ST as (EL' & ER' & _). split.
      * rewrite U1. split; [discriminate|]. intros H. rewrite <- U1. apply P1. intros n Hn. apply H. rewrite EL'. apply in_or_app. auto.
      * rewrite U2. split; [discriminate|]. intros H. rewrite <- U2. apply P2. intros n Hn. apply H. rewrite ER'. apply in_or_app. auto.
    + eexists _, _. split; [reflexivity|]. cbn. auto.
  - eexists _, _. split; [reflexivity|]. cbn. destruct (Hco (snd a) (snd b)) as [HR HQ]. split; [reflexivity|]. split; [reflexivity|]. split; [exact ST|]. apply RF; tauto.
Qed.

Lemma next_step l1 l2 r1 r2 r : st_ok l1 l2 r1 r2 -> reflects r l1 r1 ->
  exists state r', sc_next_both X co left right (length l1) (length r1) r = Ok (state, r') /\
  match state with
  | None => spec r'
  | Some (l, r0) => exists l1' l2' r1' r2', l = length l1' /\ r0 = length r1' /\ length l1 < length l1' /\ st_ok l1' l2' r1' r2' /\ reflects r' l1' r1'
  end.
Proof.
  intros ST RF. assert (ST0 := ST). destruct ST as (EL & ER & F1 & F2). destruct RF as (H1 & H2).
  unfold sc_next_both.
  assert (NEL : nth_error left (length l1) = match l2 with c :: _ => Some c | [] => None end) by (rewrite EL; apply nth_at).
  assert (NER : nth_error right (length r1) = match r2 with c :: _ => Some c | [] => None end) by (rewrite ER; apply nth_at).
  rewrite NEL, NER. clear NEL NER.
  assert (SL' := SL). assert (SR' := SR). rewrite EL in SL'. rewrite ER in SR'. apply (sorted_app X) in SL', SR'.
  destruct SL' as (_ & SL2 & GL), SR' as (_ & SR2 & GR).
  assert (NR : forall a, In a l2 -> (forall b, In b r2 -> ltb (fst a) (fst b) = true) -> ~ lin a).
  { intros a Ha Hb. intros C. exact (not_in_right a l2 r1 r2 ER (fun n Hn => F2 a n Ha Hn) Hb Ha C). }
  assert (NL : forall b, In b r2 -> (forall a, In a l2 -> ltb (fst b) (fst a) = true) -> ~ rin b).
  { intros b Hb Ha. intros C. exact (not_in_left b r2 l1 l2 EL (fun n Hn => F1 n b Hn Hb) Ha Hb C). }
  destruct l2 as [|a l2], r2 as [|b r2].
  - eexists _, _. split; [reflexivity|]. cbn. rewrite app_nil_r in EL, ER. split; [rewrite H1, <- EL|rewrite H2, <- ER]; reflexivity.
  - eexists _, _. split; [reflexivity|]. cbn. rewrite app_nil_r in EL. unfold spec, restrict, r_subset. cbn [fst snd]. rewrite andb_true_r, andb_false_r. split.
    + rewrite H1, <- EL. reflexivity.
    + split; [discriminate|]. intros H. exfalso. apply (NL b); [left; reflexivity|intros ? []|]. apply H. rewrite ER. apply in_or_app. right. left. reflexivity.
  - eexists _, _. split; [reflexivity|]. cbn. rewrite app_nil_r in ER. unfold spec, restrict, r_superset. cbn [fst snd]. rewrite andb_true_r, andb_false_r. split.
    + split; [discriminate|]. intros H. exfalso. apply (NR a); [left; reflexivity|intros ? []|]. apply H. rewrite EL. apply in_or_app. right. left. reflexivity.
    + rewrite H2, <- ER. reflexivity.
  - assert (GoL : ltb (fst a) (fst b) = true -> ~ lin a).
    { intros L. apply NR; [left; reflexivity|]. intros c [<-|Hc]; [exact L|]. apply (sorted_cons X) in SR2. eapply (el_tr X HT); [exact L|]. apply SR2. exact Hc. }
    assert (GoR : ltb (fst b) (fst a) = true -> ~ rin b).
    { intros L. apply NL; [left; reflexivity|]. intros c [<-|Hc]; [exact L|]. apply (sorted_cons X) in SL2. eapply (el_tr X HT); [exact L|]. apply SL2. exact Hc. }
    assert (Inl : In a left) by (rewrite EL; apply in_or_app; right; left; reflexivity).
    assert (Inr : In b right) by (rewrite ER; apply in_or_app; right; left; reflexivity).
    destruct (ltb (fst a) (fst b)) eqn:Lab.
    + (* left precedes right *)
      specialize (GoL eq_refl). set (r' := restrict r r_superset).
      assert (N1 : ~ forall n, In n left -> lin n) by (intros H; exact (GoL (H a Inl))).
      destruct (is_unrelated r') eqn:U.
      * eexists _, _. split; [reflexivity|]. cbn. unfold r', restrict, r_superset, is_unrelated in *. cbn [fst snd] in *.
        rewrite andb_false_r, andb_true_r in *. cbn in U. apply negb_true_iff in U. split; [split; [discriminate|contradiction]|].
        cbn. rewrite U. split; [discriminate|]. intros H. exfalso. assert (snd r = true); [|congruence]. apply H2. intros n Hn. apply H. rewrite ER. apply in_or_app. auto.
      * destruct (lower_cases X HT left (fst b) SL) as [(p1 & v & p2 & Ep & Lp)|(p1 & p2 & Ep & Lp & A & B)]; rewrite Lp.
        -- replace (nth_error left (length p1)) with (Some (fst b, v)) by (rewrite Ep, nth_at; reflexivity). cbn [fst]. rewrite (el_irr X HT).
           (* the part of left up to the joint *)
           assert (Sp : forall c, In c p1 -> ltb (fst c) (fst b) = true).
           { intros c Hc. assert (SL3 := SL). rewrite Ep in SL3. apply (sorted_app X) in SL3. destruct SL3 as (_ & _ & G). apply (G c (fst b, v) Hc). left. reflexivity. }
           assert (Ina : In a p1).
           { assert (I := Inl). rewrite Ep in I. apply in_app_or in I. destruct I as [I|I]; [exact I|exfalso].
             assert (SL3 := SL). rewrite Ep in SL3. apply (sorted_app X) in SL3. destruct SL3 as (_ & S3 & _). apply (sorted_cons X) in S3.
             destruct I as [<-|I]; [cbn in Lab; rewrite (el_irr X HT) in Lab; discriminate|]. apply S3 in I. cbn in I. rewrite (el_asym X HT _ _ Lab) in I. discriminate. }
           assert (Inc : forall c, In c l1 -> In c p1).
           { intros c Hc. assert (I : In c left) by (rewrite EL; apply in_or_app; auto). rewrite Ep in I. apply in_app_or in I. destruct I as [I|I]; [exact I|exfalso].
             pose proof (F1 c b Hc (or_introl eq_refl)) as G. assert (SL3 := SL). rewrite Ep in SL3. apply (sorted_app X) in SL3. destruct SL3 as (_ & S3 & _). apply (sorted_cons X) in S3.
             destruct I as [<-|I]; [cbn in G; rewrite (el_irr X HT) in G; discriminate|]. apply S3 in I. cbn in I. rewrite (el_asym X HT _ _ G) in I. discriminate. }
           assert (Len : (length l1 < length p1)%nat).
           { assert (L0 : (length p1 < length left)%nat) by (rewrite Ep, app_length; cbn; lia).
             destruct (le_lt_dec (length p1) (length l1)) as [Le|]; [exfalso|assumption].
             assert (P : p1 = firstn (length p1) l1).
             { transitivity (firstn (length p1) left); [rewrite Ep; symmetry; apply (firstn_mid X)|]. rewrite EL, firstn_app.
               replace (length p1 - length l1) with 0 by lia. rewrite firstn_O, app_nil_r. reflexivity. }
             assert (Ia : In a l1). { rewrite P in Ina. rewrite <- (firstn_skipn (length p1) l1). apply in_or_app. auto. }
             pose proof (GL a a Ia (or_introl eq_refl)) as G. rewrite (el_irr X HT) in G. discriminate. }
           assert (ST' : st_ok p1 ((fst b, v) :: p2) r1 (b :: r2)).
           { split; [exact Ep|]. split; [exact ER|]. split.
             - intros c d Hc [<-|Hd]; [apply Sp; exact Hc|]. eapply (el_tr X HT); [apply Sp; exact Hc|]. apply (sorted_cons X) in SR2. apply SR2. exact Hd.
             - intros c d Hc Hd. assert (G : ltb (fst d) (fst b) = true) by (apply GR; [exact Hd|left; reflexivity]).
               destruct Hc as [<-|Hc]; [exact G|]. eapply (el_tr X HT); [exact G|]. assert (SL3 := SL). rewrite Ep in SL3. apply (sorted_app X) in SL3.
               destruct SL3 as (_ & S3 & _). apply (sorted_cons X) in S3. apply (proj2 S3 c Hc). }
           assert (RF' : reflects r' p1 r1).
           { unfold r', restrict, r_superset. split; cbn [fst snd]; [|rewrite andb_true_r; exact H2]. rewrite andb_false_r. split; [discriminate|].
             intros H. exfalso. exact (GoL (H a Ina)). }
           destruct (joint_step p1 (fst b, v) p2 r1 b r2 r' ST' eq_refl RF') as (state & r'' & E & Hs). exists state, r''. split; [exact E|].
           destruct state as [(l, r0)|]; [|exact Hs]. destruct Hs as (-> & -> & ST'' & RF''). exists (p1 ++ [(fst b, v)]), p2, (r1 ++ [b]), r2.
           repeat split; auto; try apply ST''; try apply RF''. rewrite app_length. cbn. lia.
        -- assert (NB : ~ rin b). { intros C. exact (not_in_left b right p1 p2 Ep A B Inr C). }
           assert (SP : spec r_unrelated).
           { split; (split; [discriminate|]); intros H; exfalso; [exact (N1 H)|exact (NB (H b Inr))]. }
           replace (nth_error left (length p1)) with (match p2 with c :: _ => Some c | [] => None end) by (rewrite Ep, nth_at; reflexivity).
           destruct p2 as [|c p2]; [eexists _, _; split; [reflexivity|exact SP]|]. rewrite (B c (or_introl eq_refl)). eexists _, _. split; [reflexivity|exact SP].
    + destruct (ltb (fst b) (fst a)) eqn:Lba.
      * specialize (GoR eq_refl). set (r' := restrict r r_subset).
        assert (N2 : ~ forall n, In n right -> rin n) by (intros H; exact (GoR (H b Inr))).
        destruct (is_unrelated r') eqn:U.
        -- eexists _, _. split; [reflexivity|]. cbn. unfold r', restrict, r_subset, is_unrelated in *. cbn [fst snd] in *.
           rewrite andb_false_r, andb_true_r in *. cbn in U. rewrite andb_true_r in U. apply negb_true_iff in U. split; [|split; [discriminate|contradiction]].
           cbn. rewrite U. split; [discriminate|]. intros H. exfalso. assert (fst r = true); [|congruence]. apply H1. intros n Hn. apply H. rewrite EL. apply in_or_app. auto.
        -- destruct (lower_cases X HT right (fst a) SR) as [(p1 & v & p2 & Ep & Lp)|(p1 & p2 & Ep & Lp & A & B)]; rewrite Lp.
           ++ replace (nth_error right (length p1)) with (Some (fst a, v)) by (rewrite Ep, nth_at; reflexivity). cbn [fst]. rewrite (el_irr X HT).
              assert (Sp : forall c, In c p1 -> ltb (fst c) (fst a) = true).
              { intros c Hc. assert (SL3 := SR). rewrite Ep in SL3. apply (sorted_app X) in SL3. destruct SL3 as (_ & _ & G). apply (G c (fst a, v) Hc). left. reflexivity. }
              assert (Inb : In b p1).
              { assert (I := Inr). rewrite Ep in I. apply in_app_or in I. destruct I as [I|I]; [exact I|exfalso].
                assert (SL3 := SR). rewrite Ep in SL3. apply (sorted_app X) in SL3. destruct SL3 as (_ & S3 & _). apply (sorted_cons X) in S3.
                destruct I as [<-|I]; [cbn in Lba; rewrite (el_irr X HT) in Lba; discriminate|]. apply S3 in I. cbn in I. rewrite (el_asym X HT _ _ Lba) in I. discriminate. }
              assert (ST' : st_ok l1 (a :: l2) p1 ((fst a, v) :: p2)).
              { split; [exact EL|]. split; [exact Ep|]. split.
                - intros c d Hc Hd. assert (G : ltb (fst c) (fst a) = true) by (apply GL; [exact Hc|left; reflexivity]).
                  destruct Hd as [<-|Hd]; [exact G|]. eapply (el_tr X HT); [exact G|]. assert (SL3 := SR). rewrite Ep in SL3. apply (sorted_app X) in SL3.
                  destruct SL3 as (_ & S3 & _). apply (sorted_cons X) in S3. apply (proj2 S3 d Hd).
                - intros c d [<-|Hc] Hd; [apply Sp; exact Hd|]. eapply (el_tr X HT); [apply Sp; exact Hd|]. apply (sorted_cons X) in SL2. apply SL2. exact Hc. }
              assert (RF' : reflects r' l1 p1).
              { unfold r', restrict, r_subset. split; cbn [fst snd]; [rewrite andb_true_r; exact H1|]. rewrite andb_false_r. split; [discriminate|].
                intros H. exfalso. exact (GoR (H b Inb)). }
              destruct (joint_step l1 a l2 p1 (fst a, v) p2 r' ST' eq_refl RF') as (state & r'' & E & Hs). exists state, r''. split; [exact E|].
              destruct state as [(l, r0)|]; [|exact Hs]. destruct Hs as (-> & -> & ST'' & RF''). exists (l1 ++ [a]), l2, (p1 ++ [(fst a, v)]), p2.
              repeat split; auto; try apply ST''; try apply RF''. rewrite app_length. cbn. lia.
           ++ assert (NA : ~ lin a). { intros C. exact (not_in_right a left p1 p2 Ep A B Inl C). }
              assert (SP : spec r_unrelated).
              { split; (split; [discriminate|]); intros H; exfalso; [exact (NA (H a Inl))|exact (N2 H)]. }
              replace (nth_error right (length p1)) with (match p2 with c :: _ => Some c | [] => None end) by (rewrite Ep, nth_at; reflexivity).
              destruct p2 as [|c p2]; [eexists _, _; split; [reflexivity|exact SP]|]. rewrite (B c (or_introl eq_refl)). eexists _, _. split; [reflexivity|exact SP].
      * assert (Eab : fst a = fst b). { destruct (el_tot X HT (fst a) (fst b)) as [H|[H|H]]; congruence. }
        destruct (joint_step l1 a l2 r1 b r2 r ST0 Eab (conj H1 H2)) as (state & r'' & E & Hs). exists state, r''. split; [exact E|].
        destruct state as [(l, r0)|]; [|exact Hs]. destruct Hs as (-> & -> & ST'' & RF''). exists (l1 ++ [a]), l2, (r1 ++ [b]), r2.
        repeat split; auto; try apply ST''; try apply RF''. rewrite app_length. cbn. lia.
Qed.
Lemma sc_loop_spec fuel : forall l1 l2 r1 r2 r, (length left < fuel + length l1)%nat -> st_ok l1 l2 r1 r2 -> reflects r l1 r1 ->
  exists r', sc_loop X co left right fuel (length l1) (length r1) r = Ok r' /\ spec r'.
Proof.
  induction fuel as [|fuel IH]; intros l1 l2 r1 r2 r L ST RF.
  - exfalso. destruct ST as (EL & _). rewrite EL, app_length in L. lia.
  - cbn [sc_loop]. destruct (next_step l1 l2 r1 r2 r ST RF) as (state & r' & E & H). rewrite E. cbn [bind].
    destruct state as [(l, r0)|]; [|eauto]. destruct H as (l1' & l2' & r1' & r2' & -> & -> & Lt & ST' & RF'). eapply IH; eauto. lia.
Qed.
Lemma inclusion_spec : exists r, e_inclusion_compare X co left right = Ok r /\ spec r.
Proof.
  unfold e_inclusion_compare. apply (sc_loop_spec (S (length left)) [] left [] right r_equal).
  - cbn. lia.
  - repeat split; intros a b [] || intros a b _ [].
  - split; cbn; (split; [intros _ n []|reflexivity]).
Qed.
End Inclusion.
End Query.
