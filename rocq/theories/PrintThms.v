(** Texts of intervals and containers, C92 (proofs). *)
From Verif Require Import PrintSpec SetThms MapReach MapThms MapThms2 MapThms3 NestIThms NestISpec ElemFacts IntervalProps.
From Verif Require Import MapModel.
From Coq Require Import ZArith DecimalString DecimalZ DecimalFacts.
From Coq Require Bool.

Lemma split_at (P : ascii -> Prop) : forall u v c d r s, P c -> P d -> (forall x, In x u -> ~ P x) -> (forall x, In x v -> ~ P x) ->
  u ++ c :: r = v ++ d :: s -> u = v /\ c = d /\ r = s.
Proof.
  induction u as [|x u IH]; intros [|y v] c d r s Pc Pd Hu Hv E; cbn in E; injection E as E1 E2.
  - auto.
  - subst. destruct (Hv y (or_introl eq_refl) Pc).
  - subst. destruct (Hu d (or_introl eq_refl) Pd).
  - subst y. destruct (IH v c d r s Pc Pd) as (-> & -> & ->); auto; intros z Hz; [apply Hu|apply Hv]; right; exact Hz.
Qed.
Definition stop (c : ascii) : Prop := In c (lit ",)]}> ").
Lemma stops : stop ","%char /\ stop ")"%char /\ stop "]"%char /\ stop "}"%char /\ stop ">"%char /\ stop " "%char.
Proof. unfold stop. cbn. tauto. Qed.
Lemma not_stop : ~ stop "-"%char. Proof. unfold stop. cbn. intuition discriminate. Qed.
Lemma plain_split {A} (f : A -> text) (P : plain f) x y c d r s : stop c -> stop d -> f x ++ c :: r = f y ++ d :: s -> x = y /\ c = d /\ r = s.
Proof.
  intros Hc Hd E. destruct (split_at stop _ _ _ _ _ _ Hc Hd (proj2 P x) (proj2 P y) E) as (F & G & H). split; [apply (proj1 P _ _ F)|auto].
Qed.
Lemma plain_readable {A} (f : A -> text) : plain f -> readable f.
Proof.
  intros P v w r s E. cbn in E. destruct (plain_split f P _ _ _ _ _ _ (proj1 (proj2 stops)) (proj1 (proj2 stops)) E) as (-> & _ & ->). auto.
Qed.
(** a sequence of texts ended by "}" *)
Lemma concat_split {A} (f : A -> text) (Q : A -> A -> Prop) : forall (l m : list A),
  (forall a, In a l -> exists c, exists r, f a = c :: r /\ c <> "}"%char) -> (forall a, In a m -> exists c, exists r, f a = c :: r /\ c <> "}"%char) ->
  (forall a b r s, In a l -> In b m -> f a ++ r = f b ++ s -> Q a b /\ r = s) ->
  forall r s, concat (map f l) ++ "}"%char :: r = concat (map f m) ++ "}"%char :: s -> Forall2 Q l m /\ r = s.
Proof.
  induction l as [|a l IH]; intros [|b m] Hl Hm HQ r s E; cbn in E.
  - injection E as ->. split; [constructor|reflexivity].
  - exfalso. destruct (Hm b (or_introl eq_refl)) as (c & q & Eb & N). rewrite Eb in E. cbn in E. congruence.
  - exfalso. destruct (Hl a (or_introl eq_refl)) as (c & q & Eb & N). rewrite Eb in E. cbn in E. congruence.
  - rewrite <- !app_assoc in E. apply HQ in E; [|left; reflexivity|left; reflexivity]. destruct E as [Qab E].
    apply IH in E; [destruct E as [F ->]; split; [constructor; assumption|reflexivity]| | |].
    + intros; apply Hl; right; assumption.
    + intros; apply Hm; right; assumption.
    + intros; apply HQ; try (right; assumption); assumption.
Qed.

Section Itv.
Context (X : dom) (k : kind) (show : D X -> text) (P : plain show).
Notation I := (itv (D X)).
Notation pr := (print_itv X k show).
Lemma left_is (a : I) : left_bracket X k a = [if left_closed X k a then "["%char else "("%char].
Proof. unfold left_bracket, left_closed, bounds_of, static_bounds. destruct k; try reflexivity; cbn; destruct (bl (bd a)); reflexivity. Qed.
Lemma right_is (a : I) : right_bracket X k a = [if right_closed X k a then "]"%char else ")"%char].
Proof. unfold right_bracket, right_closed, bounds_of, static_bounds. destruct k; try reflexivity; cbn; destruct (br (bd a)); reflexivity. Qed.
Lemma right_stop (a : I) : stop (if right_closed X k a then "]"%char else ")"%char).
Proof. destruct (right_closed X k a); unfold stop; cbn; tauto. Qed.
Lemma itv_split (a b : I) r s : pr a ++ r = pr b ++ s ->
  r = s /\ is_empty X k a = is_empty X k b /\ bounds_of X k a = bounds_of X k b /\ (is_empty X k a = false -> lo a = lo b /\ up a = up b).
Proof.
  unfold print_itv. rewrite !left_is, !right_is.
  assert (B : forall c d : bounds, bl c = bl d -> br c = br d -> c = d) by (intros [] []; cbn; intros; subst; reflexivity).
  assert (L : (if left_closed X k a then "["%char else "("%char) = (if left_closed X k b then "["%char else "("%char) -> bl (bounds_of X k a) = bl (bounds_of X k b)).
  { unfold left_closed. destruct (bl (bounds_of X k a)), (bl (bounds_of X k b)); congruence. }
  assert (R : (if right_closed X k a then "]"%char else ")"%char) = (if right_closed X k b then "]"%char else ")"%char) -> br (bounds_of X k a) = br (bounds_of X k b)).
  { unfold right_closed. destruct (br (bounds_of X k a)), (br (bounds_of X k b)); congruence. }
  assert (C : forall a, (if right_closed X k a then "]"%char else ")"%char) <> ","%char) by (intros c; destruct (right_closed X k c); discriminate).
  destruct (is_empty X k a), (is_empty X k b); cbn [app]; rewrite <- ?app_assoc; cbn [app]; intros E; injection E as E1 E2.
  - split; [congruence|]. split; [reflexivity|]. split; [|discriminate]. apply B; [apply L; congruence|apply R; congruence].
  - exfalso. destruct (show (lo b)) as [|c q] eqn:Es; cbn in E2.
    + injection E2 as E2 _. exact (C a E2).
    + injection E2 as E2 _. apply (proj2 P (lo b) c); [rewrite Es; left; reflexivity|rewrite <- E2; apply right_stop].
  - exfalso. destruct (show (lo a)) as [|c q] eqn:Es; cbn in E2.
    + injection E2 as E2 _. exact (C b (eq_sym E2)).
    + injection E2 as E2 _. apply (proj2 P (lo a) c); [rewrite Es; left; reflexivity|rewrite E2; apply right_stop].
  - rewrite <- ?app_assoc in E2. cbn [app lit list_ascii_of_string] in E2. apply (plain_split show P) in E2; [|apply stops|apply stops]. destruct E2 as (El & _ & E2).
    rewrite <- ?app_assoc in E2. cbn [app] in E2. apply (plain_split show P) in E2; [|apply right_stop|apply right_stop]. destruct E2 as (Eu & Er & E2).
    split; [exact E2|]. split; [reflexivity|]. split; [apply B; [apply L; exact E1|apply R; exact Er]|auto].
Qed.
Lemma pr_head (a : I) : exists c r, pr a = c :: r /\ c <> "}"%char.
Proof.
  unfold print_itv. rewrite left_is. destruct (is_empty X k a); cbn; do 2 eexists; (split; [reflexivity|]); destruct (left_closed X k a); discriminate.
Qed.
Lemma pr_same (a b : I) : is_empty X k a = is_empty X k b -> same_borders X k a b -> pr a = pr b.
Proof.
  intros E (L & U & B). unfold print_itv. rewrite !left_is, !right_is. unfold left_closed, right_closed. rewrite E, L, U, B. reflexivity.
Qed.
Lemma set_split (t u : tree (D X) unit) r s : (forall a, In a (keys X t) -> is_empty X k a = false) -> print_set X k show t ++ r = print_set X k show u ++ s ->
  Forall2 (same_borders X k) (keys X t) (keys X u) /\ r = s.
Proof.
  intros Ne E. unfold print_set in E. cbn in E. injection E as E. rewrite <- !app_assoc in E. cbn in E.
  revert E. apply concat_split.
  - intros a _. apply pr_head.
  - intros a _. apply pr_head.
  - intros a b r' s' Ha Hb E. apply itv_split in E. destruct E as (E1 & E2 & E3 & E4). destruct (E4 (Ne a Ha)). unfold same_borders. auto.
Qed.
Lemma segs_split {V} (showv : V -> text) (Rv : readable showv) (l m : list (I * V)) r s : (forall a, In a l -> is_empty X k (fst a) = false) ->
  concat (map (print_seg X k show showv) l) ++ "}"%char :: r = concat (map (print_seg X k show showv) m) ++ "}"%char :: s ->
  Forall2 (fun a b => same_borders X k (fst a) (fst b) /\ snd a = snd b) l m /\ r = s.
Proof.
  intros Ne. apply concat_split.
  - intros a _. unfold print_seg. cbn. do 2 eexists. split; [reflexivity|discriminate].
  - intros a _. unfold print_seg. cbn. do 2 eexists. split; [reflexivity|discriminate].
  - intros a b r' s' Ha Hb E. unfold print_seg in E. cbn in E. injection E as E. rewrite <- !app_assoc in E. apply itv_split in E.
    destruct E as (E1 & E2 & E3 & E4). cbn in E1. injection E1 as E1. rewrite <- !app_assoc in E1. destruct (Rv _ _ _ _ E1) as [V1 V2].
    destruct (E4 (Ne a Ha)). unfold same_borders. auto.
Qed.
Lemma entries_split {V} (showv : V -> text) (Rv : readable showv) (l m : list (D X * V)) r s :
  concat (map (print_entry X show showv) l) ++ "}"%char :: r = concat (map (print_entry X show showv) m) ++ "}"%char :: s -> l = m /\ r = s.
Proof.
  intros E. assert (G : Forall2 eq l m /\ r = s).
  { revert E. apply concat_split.
    - intros a _. unfold print_entry. cbn. do 2 eexists. split; [reflexivity|discriminate].
    - intros a _. unfold print_entry. cbn. do 2 eexists. split; [reflexivity|discriminate].
    - intros [x v] [y w] r' s' Ha Hb E. unfold print_entry in E. cbn in E. injection E as E. rewrite <- !app_assoc in E. cbn in E.
      assert (E' : (show x ++ ["-"%char]) ++ ">"%char :: (showv v ++ lit ")" ++ r') = (show y ++ ["-"%char]) ++ ">"%char :: (showv w ++ lit ")" ++ s')).
      { rewrite <- !app_assoc. cbn. rewrite <- !app_assoc in E. exact E. }
      apply (split_at stop) in E'; [|apply stops|apply stops| |].
      + destruct E' as (F & _ & F'). apply app_inj_tail in F. destruct F as [F _]. apply (proj1 P) in F. destruct (Rv _ _ _ _ F') as [-> ->]. subst. auto.
      + intros c Hc. apply in_app_or in Hc. destruct Hc as [Hc|[<-|[]]]; [exact (proj2 P _ _ Hc)|exact not_stop].
      + intros c Hc. apply in_app_or in Hc. destruct Hc as [Hc|[<-|[]]]; [exact (proj2 P _ _ Hc)|exact not_stop]. }
  destruct G as [G ->]. split; [|reflexivity]. clear -G. induction G as [|a b l m E G IH]; [reflexivity|rewrite E, IH; reflexivity].
Qed.
Lemma elems_split (l m : list (D X * unit)) r s :
  concat (map (fun e => show (fst e) ++ lit " ") l) ++ "}"%char :: r = concat (map (fun e => show (fst e) ++ lit " ") m) ++ "}"%char :: s -> l = m /\ r = s.
Proof.
  intros E. assert (G : Forall2 eq l m /\ r = s).
  { revert E. apply concat_split.
    - intros [x v] _. cbn. destruct (show x) as [|c q] eqn:Es; cbn; do 2 eexists; (split; [reflexivity|]); [discriminate|].
      intros ->. apply (proj2 P x "}"%char); [rewrite Es; left; reflexivity|apply stops].
    - intros [x v] _. cbn. destruct (show x) as [|c q] eqn:Es; cbn; do 2 eexists; (split; [reflexivity|]); [discriminate|].
      intros ->. apply (proj2 P x "}"%char); [rewrite Es; left; reflexivity|apply stops].
    - intros [x []] [y []] r' s' _ _ E'. cbn in E'. rewrite <- !app_assoc in E'. cbn in E'. apply (plain_split show P) in E'; [|apply stops|apply stops].
      destruct E' as (-> & _ & ->). auto. }
  destruct G as [G ->]. split; [|reflexivity]. clear -G. induction G as [|a b l m E G IH]; [reflexivity|rewrite E, IH; reflexivity].
Qed.
End Itv.

(* ------------------------------------------------------------------ numbers *)
Lemma uint_chars (d : Decimal.uint) c : In c (lit (NilEmpty.string_of_uint d)) -> ~ stop c.
Proof. induction d; cbn; [tauto|..]; (intros [<-|H]; [unfold stop; cbn; intuition discriminate|auto]). Qed.
Lemma uint0_chars (d : Decimal.uint) c : In c (lit (NilZero.string_of_uint d)) -> ~ stop c.
Proof.
  unfold NilZero.string_of_uint. destruct d; try apply uint_chars. cbn. intros [<-|[]]. unfold stop. cbn. intuition discriminate.
Qed.
Lemma lit_inj s t : lit s = lit t -> s = t.
Proof. unfold lit. intros E. rewrite <- (string_of_list_ascii_of_string s), <- (string_of_list_ascii_of_string t), E. reflexivity. Qed.
Lemma Z_plain : plain show_Z.
Proof.
  split.
  - intros x y E. unfold show_Z in E. apply lit_inj in E.
    assert (N : forall z : Z, NilZero.int_of_string (NilZero.string_of_int (Z.to_int z)) = Some (Z.to_int z)).
    { intros z. apply NilZero.isi; destruct z as [|p|p]; cbn; try discriminate; intros Q; injection Q as Q; exact (DecimalPos.Unsigned.to_uint_nonnil p Q). }
    pose proof (N x) as Nx. rewrite E, N in Nx. injection Nx as Nx. rewrite <- (of_to x), <- (of_to y), Nx. reflexivity.
  - intros x c. change (In c (show_Z x) -> ~ stop c). unfold show_Z. destruct (Z.to_int x) as [d|d]; cbn; [apply uint0_chars|].
    intros [<-|H]; [exact not_stop|exact (uint0_chars d c H)].
Qed.

(* ------------------------------------------------------------------ == *)
Section Eq.
Context (X : dom) (k : kind) (HX : dom_ok X k) (show : D X -> text) (P : plain show).
Notation I := (itv (D X)).
Notation HT := (proj1 HX).
Lemma same_eqb (a b : I) : same_borders X k a b -> itv_eqb X k a b = true.
Proof.
  intros (L & U & B). unfold itv_eqb, lower_equal, upper_equal, first, last, lower, upper, left_closed, right_closed. rewrite L, U, B.
  assert (Rf : forall x : D X, eqb x x = true) by (intros x; apply (ElemFacts.eqb_eq X HT); reflexivity). rewrite !Rf. destruct k; rewrite ?Rf, ?Bool.orb_true_r; try reflexivity.
  assert (Bf : forall c, b_eqb c c = true) by (intros [[] []]; reflexivity). rewrite !Bf. apply Bool.orb_true_r.
Qed.
Lemma eqb_same (a b : I) : k <> DD -> (exists x, mem X k a x) -> (exists x, mem X k b x) -> itv_eqb X k a b = true -> same_borders X k a b.
Proof.
  intros Hk Na Nb E. pose proof (norm_eq X k HX a b Na Nb E) as N. unfold norm in N. unfold same_borders, bounds_of, dynamic.
  destruct k; try contradiction; unfold construct in N; try (injection N as N1 N2; rewrite N1, N2; auto). rewrite N. auto.
Qed.
Lemma thm_itv (a b : I) : print_itv X k show a = print_itv X k show b ->
  itv_eqb X k a b = true /\ is_empty X k a = is_empty X k b /\ (is_empty X k a = false -> same_borders X k a b).
Proof.
  intros E. apply (f_equal (fun l => l ++ [])) in E. apply (itv_split X k show P) in E. destruct E as (_ & E1 & E2 & E3).
  assert (S : is_empty X k a = false -> same_borders X k a b) by (intros E; destruct (E3 E); unfold same_borders; auto).
  split; [|auto]. destruct (is_empty X k a) eqn:Ea; [|apply same_eqb; auto]. unfold itv_eqb. rewrite Ea, <- E1. reflexivity.
Qed.
Lemma ne_of (a : I) : (exists x, mem X k a x) -> is_empty X k a = false.
Proof. apply (is_empty_false X k HX a). Qed.
Lemma thm_itv_text (a b : I) : k <> DD -> is_empty X k a = false -> is_empty X k b = false -> itv_eqb X k a b = true -> print_itv X k show a = print_itv X k show b.
Proof.
  intros Hk Ea Eb E. apply pr_same; [congruence|]. apply eqb_same; auto; apply (is_empty_false X k HX); assumption.
Qed.
Lemma set_ne st (t : tree (D X) unit) a : reach X k st t -> In a (keys X t) -> exists x, mem X k a x.
Proof. intros Ht. pose proof (inv_ascending X k HX t (reach_inv X k HX st t Ht)) as [A _]. apply A. Qed.
Lemma thm_set st st' t u r s : reach X k st t -> reach X k st' u -> print_set X k show t ++ r = print_set X k show u ++ s -> s_eqb X k t u = true /\ r = s.
Proof.
  intros Ht Hu E. apply (set_split X k show P) in E; [|intros a Ha; apply ne_of; exact (set_ne st t a Ht Ha)]. destruct E as [F ->]. split; [|reflexivity].
  unfold s_eqb. clear -F HX. induction F as [|a b l m E F IH]; [reflexivity|]. cbn. rewrite (same_eqb a b E), IH. reflexivity.
Qed.
Lemma thm_set_text st st' t u : k <> DD -> reach X k st t -> reach X k st' u -> s_eqb X k t u = true -> print_set X k show t = print_set X k show u.
Proof.
  intros Hk Ht Hu E. unfold print_set. do 2 f_equal. f_equal. unfold s_eqb in E.
  pose proof (fun a => set_ne st t a Ht) as Nt. pose proof (fun a => set_ne st' u a Hu) as Nu. revert E Nt Nu. generalize (keys X t) as l, (keys X u) as m.
  induction l as [|a l IH]; intros [|b m] E Nt Nu; cbn in E; try discriminate; [reflexivity|]. apply andb_prop in E. destruct E as [E1 E2]. cbn. f_equal.
  - apply thm_itv_text; auto; apply ne_of; [apply Nt|apply Nu]; left; reflexivity.
  - apply IH; [exact E2|intros; apply Nt; right; assumption|intros; apply Nu; right; assumption].
Qed.
Context (CC : codomain) (Hco : eq_ok CC) (showv : CC -> text) (Rv : readable showv).
Lemma map_ne p (t : tree (D X) CC) s : mreach X k CC p t -> In s (segs X CC t) -> exists x, mem X k (fst s) x.
Proof.
  intros Ht Hs. pose proof (inv_ascending X k HX t (mreach_inv X k HX CC Hco p t Ht)) as [A _]. apply A. unfold segs in Hs. apply in_map_iff in Hs.
  destruct Hs as (n & <- & Hn). cbn. unfold keys. apply in_map. exact Hn.
Qed.
Lemma nodes_same q (l m : list (Tree.node (D X) CC)) :
  Forall2 (fun a b : I * CC => same_borders X k (fst a) (fst b) /\ snd a = snd b) (map (fun n => (nkey n, nval n)) l) (map (fun n => (nkey n, nval n)) m) ->
  segs_eqb X k (mt CC q) l m = true.
Proof.
  revert m. induction l as [|a l IH]; intros [|b m] F; cbn in F; inversion F; subst; [reflexivity|].
  match goal with H : _ /\ _ |- _ => destruct H as [S E] end. cbn in S, E. cbn. rewrite (same_eqb _ _ S), (proj2 (Hco _ _) E), (IH m); auto.
Qed.
Lemma nodes_text q (l m : list (Tree.node (D X) CC)) : k <> DD -> (forall n, In n l -> exists x, mem X k (nkey n) x) -> (forall n, In n m -> exists x, mem X k (nkey n) x) ->
  segs_eqb X k (mt CC q) l m = true ->
  map (print_seg X k show showv) (map (fun n => (nkey n, nval n)) l) = map (print_seg X k show showv) (map (fun n => (nkey n, nval n)) m).
Proof.
  intros Hk. revert m. induction l as [|a l IH]; intros [|b m] Nt Nu E; cbn in E; try discriminate; [reflexivity|]. apply andb_prop in E. destruct E as [E1 E2].
  apply andb_prop in E1. destruct E1 as [E0 E1]. cbn [map]. f_equal.
  - unfold print_seg. cbn [fst snd]. rewrite (thm_itv_text (nkey a) (nkey b) Hk); [apply Hco in E1; rewrite E1; reflexivity| | |exact E0]; apply ne_of;
      [apply Nt|apply Nu]; left; reflexivity.
  - apply IH; [intros; apply Nt; right; assumption|intros; apply Nu; right; assumption|exact E2].
Qed.
Lemma thm_map p p' q t u r s : mreach X k CC p t -> mreach X k CC p' u -> print_map X k show showv t ++ r = print_map X k show showv u ++ s ->
  m_eqb X k (mt CC q) t u = true /\ r = s.
Proof.
  intros Ht Hu E. unfold print_map in E. cbn in E. injection E as E. rewrite <- !app_assoc in E. cbn in E.
  apply (segs_split X k show P showv Rv) in E; [|intros a Ha; apply ne_of; exact (map_ne p t a Ht Ha)]. destruct E as [F ->]. split; [|reflexivity].
  exact (nodes_same q _ _ F).
Qed.
Lemma thm_map_text p p' q t u : k <> DD -> mreach X k CC p t -> mreach X k CC p' u -> m_eqb X k (mt CC q) t u = true ->
  print_map X k show showv t = print_map X k show showv u.
Proof.
  intros Hk Ht Hu E. unfold print_map. rewrite (nodes_text q (nodes t) (nodes u) Hk); [reflexivity| | |exact E].
  - intros n Hn. apply (map_ne p t (nkey n, nval n) Ht). unfold segs. apply in_map_iff. exists n. auto.
  - intros n Hn. apply (map_ne p' u (nkey n, nval n) Hu). unfold segs. apply in_map_iff. exists n. auto.
Qed.
End Eq.
Lemma emap_split (X : dom) (show : D X -> text) (P : plain show) {V} (showv : V -> text) (Rv : readable showv) l m r s :
  print_emap X show showv l ++ r = print_emap X show showv m ++ s -> l = m /\ r = s.
Proof. unfold print_emap. cbn. intros E. injection E as E. rewrite <- !app_assoc in E. exact (entries_split X show P showv Rv l m r s E). Qed.
Lemma eset_split (X : dom) (show : D X -> text) (P : plain show) l m r s : print_eset X show l ++ r = print_eset X show m ++ s -> l = m /\ r = s.
Proof. unfold print_eset. cbn. intros E. injection E as E. rewrite <- !app_assoc in E. exact (elems_split X show P l m r s E). Qed.

Section Shape.
Context (X : dom) (k : kind) (HX : dom_ok X k) (show : D X -> text).
Lemma thm_shape (a : itv (D X)) : (exists x, mem X k a x) -> exists c d, print_itv X k show a = [c] ++ show (lo a) ++ lit "," ++ show (up a) ++ [d] /\
  (mem X k a (lo a) /\ c = "["%char \/ ~ mem X k a (lo a) /\ c = "("%char) /\ (mem X k a (up a) /\ d = "]"%char \/ ~ mem X k a (up a) /\ d = ")"%char).
Proof.
  intros Na. unfold print_itv. rewrite (ne_of X k HX a Na), left_is, right_is. do 2 eexists. split; [reflexivity|].
  destruct Na as (x & Hx). destruct (proj1 HX) as (Ir & Tr & To).
  assert (T1 : ltb (lo a) x = true -> ltb x (up a) = true -> ltb (lo a) (up a) = true /\ ltb (up a) (lo a) = false).
  { intros H1 H2. pose proof (Tr _ _ _ H1 H2) as H. split; [exact H|]. destruct (ltb (up a) (lo a)) eqn:E; [|reflexivity]. rewrite <- (Ir (lo a)). symmetry. exact (Tr _ _ _ H E). }
  assert (T2 : ltb x (lo a) = false -> ltb (lo a) x = true \/ lo a = x) by (intros H; destruct (To (lo a) x) as [Q|[Q|Q]]; auto; congruence).
  assert (T3 : ltb (up a) x = false -> ltb x (up a) = true \/ x = up a) by (intros H; destruct (To x (up a)) as [Q|[Q|Q]]; auto; congruence).
  assert (T4 : ltb (lo a) (up a) = true -> ltb (up a) (lo a) = false).
  { intros H. destruct (ltb (up a) (lo a)) eqn:E; [|reflexivity]. rewrite <- (Ir (lo a)). symmetry. exact (Tr _ _ _ H E). }
  unfold mem, left_closed, right_closed, bounds_of, static_bounds, le, lt in *.
  destruct k; cbn in *; try (destruct (bl (bd a)), (br (bd a)); cbn in * ); rewrite ?Ir; destruct Hx as [H1 H2];
    (split; [first [left; split; [split|reflexivity] | right; split; [intros [? ?]|reflexivity]]|first [left; split; [split|reflexivity] | right; split; [intros [? ?]|reflexivity]]]);
    try reflexivity; try discriminate; try congruence.
  all: try (destruct (T2 H1) as [Q|Q]; [|subst x]); try (destruct (T3 H2) as [Q'|Q']; [|subst x]); try (rewrite Q').
  all: try (apply T1; assumption); try apply Ir; try (apply T4; assumption); try assumption; eauto.
Qed.
End Shape.
