(** The operations of interval maps with a segment, for all arguments, and with whole maps
    (proofs). *)
From Verif Require Export MapErase SetQuery4.
From Verif Require Export MapModel.

Section MapWhole.
Context (X : dom) (k : kind).
Context (HX : dom_ok X k).
Context (M : mtype).
Notation CC := (mt_co M).
Notation V := (C CC).
Context (Hco : forall v w : CC, cc_eq v w = true <-> v = w).
Notation I := (itv (D X)).
Notation node := (node (D X) V).
Notation tree := (tree (D X) V).
Notation iset := (Tree.tree (D X) unit).
Notation lc := (lc X k).
Notation uc := (uc X k).
Notation cltb := (cltb X).
Notation ceqb := (ceqb X).
Notation cut := (cut X).
Notation ne := (@ne X k).
Notation spl := (spl M).
Notation J := (J X k M).
Notation minv := (minv X k M).
Notation post := (post k spl).
Ltac cord := cord_ X k HX.
Ltac lst := rewrite <- ?app_assoc; cbn [app]; congruence || auto.

(** the function a list of segments represents *)
Notation vf t := (vr k (nodes t)).

(** a change of the values in [a] *)
Definition chg (a : I) (g : option V -> option V) (l l' : list node) : Prop :=
  forall c, vr k l' c = if inr k a c then g (vr k l c) else vr k l c.
Lemma upd_chg a g l l' : upd k (lc a) (uc a) g l l' -> chg a g l l'.
Proof. intros [H _] c. rewrite H. unfold inr. auto. Qed.
Lemma chg_empty a g l : is_empty X k a = true -> chg a g l l.
Proof. intros E c. apply (not_ne X k HX) in E. unfold inr. ifg; auto. exfalso. cord. Qed.
Lemma chg_ext a g g' l l' : (forall o, g o = g' o) -> chg a g l l' -> chg a g' l l'.
Proof. intros E H c. rewrite H, E. auto. Qed.
Lemma chg_id a l : chg a (fun o => o) l l.
Proof. intros c. ifg; auto. Qed.

(** absorbable operands change nothing *)
Definition ga (f : functor) (x : V) (o : option V) : option V := if is_absorbable M x then o else gadd M f x o.
Definition gs (f : functor) (x : V) (o : option V) : option V := if is_absorbable M x then o else gsub M f x o.
Definition gi (x : V) (o : option V) : option V := if is_absorbable M x then o else gins M x o.
Definition ge (x : V) (o : option V) : option V := if is_absorbable M x then o else gers M x o.

(** no stored identity element in an absorber *)
Definition aok (l : list node) : Prop := mt_absorbs M = true -> forall c, vr k l c <> Some cc_zero.
Lemma aok_nodes l : srt k l -> (aok l <-> (mt_absorbs M = true -> forall n, In n l -> nval n <> cc_zero)).
Proof.
  intros S. unfold aok. split; intros H A; specialize (H A).
  - intros n Hn E. pose proof (srt_in X k M _ _ S Hn) as N. unfold Seg.ne in N. apply (H (lc (nkey n))).
    apply (vr_some X k HX); auto. exists n. conjs; auto. unfold inr. cord.
  - intros c E. apply (vr_some X k HX) in E; auto. destruct E as (n & Hn & _ & E). apply (H n); auto.
Qed.
Lemma aok_nil : aok []. Proof. intros _ c. discriminate. Qed.
Definition gok (g : option V -> option V) : Prop := mt_absorbs M = true -> forall o, o <> Some cc_zero -> g o <> Some cc_zero.
Lemma aok_chg a g l l' : gok g -> chg a g l l' -> aok l -> aok l'.
Proof. intros G C A Ab c. rewrite C. destruct (inr k a c); [apply G; auto; apply A; auto|apply A; auto]. Qed.

(** the first value stored for x is not the identity element unless x is *)
Definition honest (f : functor) : Prop := forall x : V, version CC f x = cc_zero -> x = cc_zero.
(** the identity element is neutral *)
Definition neutral (f : functor) : Prop := forall x : V, combine CC f cc_zero x = version CC f x.
Lemma absorb_ok v : mt_absorbs M = true -> absorb M v <> Some cc_zero.
Proof.
  intros A. unfold absorb, is_absorbable. rewrite A. cbn. destruct (cc_eq v cc_zero) eqn:E; [discriminate|].
  intros H. injection H as ->. rewrite (proj2 (Hco _ _)) in E; congruence.
Qed.
Lemma gok_ga f x : honest f -> gok (ga f x).
Proof.
  intros H A o Ho. unfold ga. destruct (is_absorbable M x) eqn:Ex; auto. destruct o; cbn [gadd].
  - apply absorb_ok; auto.
  - intros E. injection E as E. apply H in E. subst. unfold is_absorbable in Ex. rewrite A in Ex.
    cbn in Ex. rewrite (proj2 (Hco _ _)) in Ex; congruence.
Qed.
Lemma gok_gs f x : gok (gs f x).
Proof. intros A o Ho. unfold gs. destruct (is_absorbable M x) eqn:Ex; auto. destruct o; cbn [gsub]; [apply absorb_ok; auto|discriminate]. Qed.
Lemma gok_gi x : gok (gi x).
Proof.
  intros A o Ho. unfold gi. destruct (is_absorbable M x) eqn:Ex; auto. destruct o; cbn [gins]; auto.
  intros E. injection E as E. subst. unfold is_absorbable in Ex. rewrite A in Ex. cbn in Ex. rewrite (proj2 (Hco _ _)) in Ex; congruence.
Qed.
Lemma gok_ge x : gok (ge x).
Proof. intros A o Ho. unfold ge. destruct (is_absorbable M x) eqn:Ex; auto. destruct o; cbn [gers]; [destruct (cc_eq _ _)|]; auto; discriminate. Qed.
Lemma gok_none : gok (fun _ => None).
Proof. intros A o Ho. discriminate. Qed.

(* ------------------------------------------------------------ one segment, any argument *)
Lemma isit_end (t : tree) : isit t None. Proof. exact Logic.I. Qed.
Lemma add_any f t a x : minv t ->
  exists t' it, m_add_ X k M f t a x = Ok (t', it) /\ minv t' /\ isit t' it /\ chg a (ga f x) (nodes t) (nodes t').
Proof.
  intros H. unfold ga. destruct (is_empty X k a) eqn:Ea.
  { unfold m_add_. rewrite Ea. eexists _, _. split; [reflexivity|]. conjs; auto using isit_end. apply chg_empty; auto. }
  destruct (is_absorbable M x) eqn:Ex.
  { unfold m_add_. rewrite Ea, Ex. eexists _, _. split; [reflexivity|]. conjs; auto using isit_end. apply chg_id. }
  destruct (add_at_ X k HX M Hco f t a x) as (t' & it & E & H1 & H2 & H3 & _); auto. { apply (ne_iff X k HX); auto. }
  exists t', it. conjs; auto. apply upd_chg; auto.
Qed.
Lemma add_hint_any f t h a x : minv t -> isit t h ->
  exists t' it, m_add_hint_ X k M f t h a x = Ok (t', it) /\ minv t' /\ isit t' it /\
    (aok (nodes t) -> neutral f -> chg a (ga f x) (nodes t) (nodes t')).
Proof.
  intros H Hh. unfold ga. destruct (is_empty X k a) eqn:Ea.
  { unfold m_add_hint_. rewrite Ea. eexists _, _. split; [reflexivity|]. conjs; auto. intros _ _. apply chg_empty; auto. }
  destruct (is_absorbable M x) eqn:Ex.
  { unfold m_add_hint_. rewrite Ea, Ex. eexists _, _. split; [reflexivity|]. conjs; auto. intros _ _. apply chg_id. }
  assert (Na : ne a) by (apply (ne_iff X k HX); auto).
  pose proof H as [[W S] HJ].
  destruct (decomp X k HX a (nodes t) S Na) as (L & N & R & E & BL & ON & AR).
  destruct N as [|m N'] eqn:EN.
  - destruct (add_hint_at_free X k HX M Hco f t h L R a x) as (t' & it & E' & H1 & H2 & H3 & _); auto.
    exists t', it. conjs; auto. intros _ Ne. apply upd_chg in H3. eapply chg_ext; [|exact H3].
    intros [v|]; cbn; auto. rewrite Ne. auto.
  - destruct (add_hint_over_any X k HX M Hco f t h L (m :: N') R a x) as (t' & it & g & E' & H1 & H2 & [H3 _] & H4); auto; try discriminate.
    exists t', it. conjs; auto. intros A _. apply upd_chg. destruct H4 as [->|(_ & Ab & n & Hn & Zn)]; auto.
    exfalso. rewrite (aok_nodes _ S) in A. apply (A Ab n); auto.
Qed.
Lemma sub_any f t a x : minv t -> exists t', m_subtract_ X k M f t a x = Ok t' /\ minv t' /\ chg a (gs f x) (nodes t) (nodes t').
Proof.
  intros H. unfold gs. destruct (is_empty X k a) eqn:Ea.
  { unfold m_subtract_. rewrite Ea. eexists. split; [reflexivity|]. conjs; auto. apply chg_empty; auto. }
  destruct (is_absorbable M x) eqn:Ex.
  { unfold m_subtract_. rewrite Ea, Ex. eexists. split; [reflexivity|]. conjs; auto. apply chg_id. }
  destruct (subtract_at X k HX M Hco f t a x) as (t' & E & H1 & H3 & _); auto. { apply (ne_iff X k HX); auto. }
  exists t'. conjs; auto. apply upd_chg; auto.
Qed.
Lemma ins_any t a x : minv t -> exists t' it, m_insert_ X k M t a x = Ok (t', it) /\ minv t' /\ isit t' it /\ chg a (gi x) (nodes t) (nodes t').
Proof.
  intros H. unfold gi. destruct (is_empty X k a) eqn:Ea.
  { unfold m_insert_. rewrite Ea. eexists _, _. split; [reflexivity|]. conjs; auto using isit_end. apply chg_empty; auto. }
  destruct (is_absorbable M x) eqn:Ex.
  { unfold m_insert_. rewrite Ea, Ex. eexists _, _. split; [reflexivity|]. conjs; auto using isit_end. apply chg_id. }
  destruct (insert_at_ X k HX M Hco t a x) as (t' & it & E & H1 & H2 & H3 & _); auto. { apply (ne_iff X k HX); auto. }
  exists t', it. conjs; auto. apply upd_chg; auto.
Qed.
Lemma ins_hint_any t h a x : minv t -> isit t h ->
  exists t' it, m_insert_hint X k M t h a x = Ok (t', it) /\ minv t' /\ isit t' it /\ chg a (gi x) (nodes t) (nodes t').
Proof.
  intros H Hh. unfold gi. destruct (is_empty X k a) eqn:Ea.
  { unfold m_insert_hint. rewrite Ea. eexists _, _. split; [reflexivity|]. conjs; auto. apply chg_empty; auto. }
  destruct (is_absorbable M x) eqn:Ex.
  { unfold m_insert_hint. rewrite Ea, Ex. eexists _, _. split; [reflexivity|]. conjs; auto. apply chg_id. }
  destruct (insert_hint_at_ X k HX M Hco t h a x) as (t' & it & E & H1 & H2 & H3 & _); auto. { apply (ne_iff X k HX); auto. }
  exists t', it. conjs; auto. apply upd_chg; auto.
Qed.
Lemma erase_seg_any t a x : minv t -> exists t', m_erase_seg X k M t a x = Ok t' /\ minv t' /\ chg a (ge x) (nodes t) (nodes t').
Proof.
  intros H. unfold ge. destruct (is_empty X k a) eqn:Ea.
  { unfold m_erase_seg. rewrite Ea. eexists. split; [reflexivity|]. conjs; auto. apply chg_empty; auto. }
  destruct (is_absorbable M x) eqn:Ex.
  { unfold m_erase_seg. rewrite Ea, Ex. eexists. split; [reflexivity|]. conjs; auto. apply chg_id. }
  destruct (erase_seg_at X k HX M Hco t a x) as (t' & E & H1 & H3 & _); auto. { apply (ne_iff X k HX); auto. }
  exists t'. conjs; auto. apply upd_chg; auto.
Qed.
Lemma erase_any t a : minv t -> exists t', m_erase X k M t a = Ok t' /\ minv t' /\ chg a (fun _ => None) (nodes t) (nodes t').
Proof.
  intros H. destruct (is_empty X k a) eqn:Ea.
  { unfold m_erase. rewrite Ea. eexists. split; [reflexivity|]. conjs; auto. apply chg_empty; auto. }
  destruct (erase_itv_at X k HX M Hco t a) as (t' & E & H1 & H3 & _); auto. { apply (ne_iff X k HX); auto. }
  exists t'. conjs; auto. apply upd_chg; auto.
Qed.
Definition gset (x : V) (_ : option V) : option V := absorb M x.
Lemma set_any t a x : minv t -> exists t', m_set X k M t a x = Ok t' /\ minv t' /\ chg a (gset x) (nodes t) (nodes t').
Proof.
  intros H. unfold m_set. destruct (erase_any t a H) as (t1 & -> & I1 & C1). cbn [bind]. unfold m_insert.
  destruct (ins_any t1 a x I1) as (t2 & it & -> & I2 & _ & C2). cbn [bind]. exists t2. conjs; auto.
  intros c. rewrite C2, C1. destruct (inr k a c); auto.
Qed.
Lemma madd_any t a x : minv t -> exists t', m_add X k M t a x = Ok t' /\ minv t' /\ chg a (ga (codomain_combine M) x) (nodes t) (nodes t').
Proof.
  intros H. unfold m_add. destruct (add_any (codomain_combine M) t a x H) as (t' & it & -> & I' & _ & C'). exists t'. auto.
Qed.
Lemma mins_any t a x : minv t -> exists t', m_insert X k M t a x = Ok t' /\ minv t' /\ chg a (gi x) (nodes t) (nodes t').
Proof.
  intros H. unfold m_insert. destruct (ins_any t a x H) as (t' & it & -> & I' & _ & C'). exists t'. auto.
Qed.
Definition gsubt (x : V) : option V -> option V :=
  if is_total_invertible M then ga (inverse_codomain_combine M) x else gs (inverse_codomain_combine M) x.
Lemma msub_any t a x : minv t -> exists t', m_subtract X k M t a x = Ok t' /\ minv t' /\ chg a (gsubt x) (nodes t) (nodes t').
Proof.
  intros H. unfold m_subtract, gsubt. destruct (is_total_invertible M).
  - destruct (add_any (inverse_codomain_combine M) t a x H) as (t' & it & -> & I' & _ & C'). exists t'. auto.
  - apply sub_any; auto.
Qed.

(* ------------------------------------------------------------ folding over the segments of an operand *)
Lemma vr_cons_in {W} (n : Tree.node (D X) W) l c : srt k (n :: l) -> inr k (nkey n) c = true -> vr k l c = None.
Proof.
  intros (N & A & S) H. apply (vr_above X k HX l (uc (nkey n)) c); auto. unfold inr in H. unfold Seg.ne in N.
  apply andb_true_iff in H. tauto.
Qed.
Section Fold.
Context {St W : Type} (view : St -> cut -> option V) (P : St -> Prop) (Q : Prop).
Context (F : St -> Tree.node (D X) W -> res St) (G : W -> cut -> option V -> option V).
(** [Q] is what the effect on the values depends on; the operation succeeds without it *)
Lemma fold_at l : srt k l ->
  (forall s n, P s -> In n l -> exists s', F s n = Ok s' /\ P s' /\ (Q -> forall c, view s' c = if inr k (nkey n) c then G (nval n) c (view s c) else view s c)) ->
  forall s, P s -> exists s', foldM F s l = Ok s' /\ P s' /\
    (Q -> forall c, view s' c = match vr k l c with Some x => G x c (view s c) | None => view s c end).
Proof.
  induction l as [|n l IH]; intros S H s Hs; cbn [foldM].
  - exists s. conjs; auto.
  - destruct (H s n) as (s1 & -> & P1 & V1); cbn; auto.
    destruct (IH (proj2 (proj2 S))) with (s := s1) as (s2 & -> & P2 & V2); auto.
    { intros s0 m H0 Hm. apply H; auto. right. auto. }
    exists s2. conjs; auto. intros q c. rewrite (V2 q), (V1 q). cbn [vr].
    destruct (inr k (nkey n) c) eqn:E; cbn [orelse]; auto.
    rewrite (vr_cons_in n l c) by auto. auto.
Qed.
End Fold.

(** the map operand's function applied pointwise *)
Definition pw (G : V -> option V -> option V) (l o l' : list node) : Prop :=
  forall c, vr k l' c = match vr k o c with Some x => G x (vr k l c) | None => vr k l c end.
Lemma aok_pw G l o l' : (forall x, gok (G x)) -> pw G l o l' -> aok l -> aok l'.
Proof. intros H C A Ab c. rewrite C. destruct (vr k o c); [apply H; auto; apply A; auto|apply A; auto]. Qed.


Definition mok (t : tree) : Prop := minv t /\ aok (nodes t).
Definition good : Prop := neutral (codomain_combine M) /\ honest (codomain_combine M).

Lemma add_list_at (l : list node) t : srt k l -> minv t ->
  exists t', (' (t, _) <- foldM (fun '(t, prior_) n => m_add_hint X k M t prior_ (nkey n) (nval n)) (t, end_ t) l ;; Ok t) = Ok t' /\ minv t' /\
    (good -> aok (nodes t) -> aok (nodes t') /\ pw (ga (codomain_combine M)) (nodes t) l (nodes t')).
Proof.
  intros Sl Ht.
  destruct (fold_at (fun s : tree * Tree.iter => vr k (nodes (fst s)))
              (fun s : tree * Tree.iter => minv (fst s) /\ isit (fst s) (snd s) /\ (good /\ aok (nodes t) -> aok (nodes (fst s)))) (good /\ aok (nodes t))
              (fun '(t, prior_) n => m_add_hint X k M t prior_ (nkey n) (nval n))
              (fun x c o => ga (codomain_combine M) x o) l Sl) with (s := (t, @None nat)) as ([t' h'] & E & (P1 & P2 & P3) & V).
  - intros [s h] n (P1 & P2 & P3) Hn. cbn [fst snd] in *. unfold m_add_hint.
    destruct (add_hint_any (codomain_combine M) s h (nkey n) (nval n) P1 P2) as (s1 & h1 & E & Q1 & Q2 & Q3).
    exists (s1, h1). split; auto. cbn [fst snd]. split; [split; [auto|split; [auto|]]|].
    + intros Q. eapply aok_chg; [apply gok_ga; apply Q|apply Q3; auto; apply Q|auto].
    + intros Q. apply Q3; auto. apply Q.
  - cbn. conjs; auto using isit_end; tauto.
  - unfold end_. unfold Tree.iter in *. rewrite E. cbn [bind fst snd] in *. exists t'. conjs; auto. intros. split; auto. intros c. apply V; auto.
Qed.
Lemma add_map_at t o : minv t -> inv k o -> exists t', m_add_map X k M t o = Ok t' /\ minv t' /\
  (good -> aok (nodes t) -> aok (nodes t') /\ pw (ga (codomain_combine M)) (nodes t) (nodes o) (nodes t')).
Proof. intros Ht [_ So]. apply add_list_at; auto. Qed.

Lemma insert_map_at t o : minv t -> inv k o -> exists t', m_insert_map X k M t o = Ok t' /\ minv t' /\
  pw gi (nodes t) (nodes o) (nodes t').
Proof.
  intros Ht [_ So]. unfold m_insert_map.
  destruct (fold_at (fun s => vr k (nodes s)) minv True
           (fun t n => ' (t, _) <- m_insert_hint X k M t None (nkey n) (nval n) ;; Ok t) (fun x c o => gi x o) (nodes o)) with (s := t) as (t' & E & P & V); auto.
  - intros s n Hs _. destruct (ins_hint_any s None (nkey n) (nval n) Hs (isit_end s)) as (s1 & h1 & -> & Q1 & _ & Q3). exists s1. auto.
  - exists t'. conjs; auto. intros c. apply V; auto.
Qed.
Lemma subtract_map_at t o : minv t -> inv k o -> exists t', m_subtract_map X k M t o = Ok t' /\ minv t' /\
  pw gsubt (nodes t) (nodes o) (nodes t').
Proof.
  intros Ht [_ So]. unfold m_subtract_map.
  destruct (fold_at (fun s => vr k (nodes s)) minv True (fun t n => m_subtract X k M t (nkey n) (nval n)) (fun x c o => gsubt x o) (nodes o))
    with (s := t) as (t' & E & P & V); auto.
  - intros s n Hs _. destruct (msub_any s (nkey n) (nval n) Hs) as (s1 & -> & Q1 & Q3). exists s1. auto.
  - exists t'. conjs; auto. intros c. apply V; auto.
Qed.

(** segments of the operand outside the common range meet no segment of the object *)
Lemma befor_vr {A B} (l : list (Tree.node (D X) A)) (L N R : list (Tree.node (D X) B)) c :
  srt k l -> srt k (L ++ N ++ R) -> befor X k L l -> befor X k l R -> some (vr k l c) = true -> vr k (L ++ N ++ R) c = vr k N c.
Proof.
  intros Sl S BL BR E. destruct (vr k l c) as [v|] eqn:Ev; [|discriminate]. apply (vr_some X k HX) in Ev; auto. destruct Ev as (n & Hn & En & _).
  apply (srt_parts X k) in S. destruct S as (SL & SN & SR).
  assert (HL : vr k L c = None).
  { destruct (vr k L c) eqn:F; auto. exfalso. apply (vr_some X k HX) in F; auto. destruct F as (m & Hm & Em & _).
    specialize (BL m n Hm Hn). unfold inr in *. cord. }
  assert (HR : vr k R c = None).
  { destruct (vr k R c) eqn:F; auto. exfalso. apply (vr_some X k HX) in F; auto. destruct F as (m & Hm & Em & _).
    specialize (BR n m Hn Hm). unfold inr in *. cord. }
  rewrite !(vr_app X k), HL, HR. destruct (vr k N c); auto.
Qed.

Section Common.
Context {W : Type} (Q : Prop) (F : tree -> Tree.node (D X) W -> res tree) (G : W -> cut -> option V -> option V) (P : tree -> Prop).
(** the loop over the part of the operand [o] in the range of the object [t] *)
Lemma common_at {U} (t : Tree.tree (D X) U) (o : Tree.tree (D X) W) s :
  (forall s n, P s -> In n (nodes o) -> exists s', F s n = Ok s' /\ P s' /\ (Q -> forall c, vr k (nodes s') c = if inr k (nkey n) c then G (nval n) c (vr k (nodes s) c) else vr k (nodes s) c)) ->
  inv k t -> inv k o -> P s -> exists s',
  (match nodes o with
   | [] => Ok s
   | _ =>
      cr <- common_range X k o t ;;
      match cr with
      | None => Ok s
      | Some (lwb, upb) =>
          l <- range X o lwb upb ;;
          foldM F s l
      end
   end) = Ok s' /\ P s' /\
  (Q -> (forall w c, vr k (nodes t) c = None -> G w c (vr k (nodes s) c) = vr k (nodes s) c) ->
   forall c, vr k (nodes s') c = match vr k (nodes o) c with Some w => G w c (vr k (nodes s) c) | None => vr k (nodes s) c end).
Proof.
  intros HF Ht Ho Ps. pose proof Ht as [_ St]. pose proof Ho as [Wo So].
  destruct (common_range_at X k HX o t Ho Ht) as (L & N & R & r & E & EN & BL & BR & H).
  pose proof So as S'. rewrite EN in S'.
  assert (OUT : forall c, some (vr k (nodes t) c) = true -> vr k (nodes o) c = vr k N c).
  { intros c Hc. rewrite EN. eapply befor_vr; [exact St|exact S'|auto..]. }
  destruct (nodes o) as [|n0 l0] eqn:Eo.
  { exists s. conjs; auto. }
  rewrite E. cbn [bind].
  destruct H as [(-> & ->)|(-> & Hne)].
  - exists s. conjs; auto. intros _ G0 c. rewrite <- Eo in *. destruct (vr k (nodes t) c) eqn:F0.
    + rewrite OUT by (rewrite F0; auto). auto.
    + destruct (vr k (nodes o) c); rewrite ?G0; auto.
  - rewrite <- Eo in *. rewrite (range_at X o L N R) by auto. cbn [bind].
    destruct (fold_at (fun s => vr k (nodes s)) P Q F G N) with (s := s) as (t' & -> & Pt' & Vt'); auto.
    { apply (srt_parts X k) in S'. tauto. }
    { intros s0 n Hs Hn. apply HF; auto. rewrite EN. apply in_app_iff. right. apply in_app_iff. auto. }
    exists t'. conjs; auto. intros q G0 c. rewrite (Vt' q). destruct (vr k (nodes t) c) eqn:F0.
    + rewrite OUT by (rewrite F0; auto). auto.
    + destruct (vr k N c), (vr k (nodes o) c); rewrite ?G0; auto.
Qed.
End Common.

Lemma erase_map_at t o : minv t -> inv k o -> exists t', m_erase_map X k M t o = Ok t' /\ minv t' /\ pw ge (nodes t) (nodes o) (nodes t').
Proof.
  intros Ht Ho. unfold m_erase_map.
  destruct (common_at True (fun t n => m_erase_seg X k M t (nkey n) (nval n)) (fun x c => ge x) minv t o t) as (t' & E & P & V); auto.
  - intros s n Hs _. destruct (erase_seg_any s (nkey n) (nval n) Hs) as (s1 & Q1 & Q2 & Q3). exists s1. auto.
  - apply Ht.
  - exists t'. conjs; auto. intros c. apply V; auto. intros w c' ->. unfold ge. ifg; auto.
Qed.
Lemma erase_set_at t (o : iset) : minv t -> inv k o -> exists t', m_erase_set X k M t o = Ok t' /\ minv t' /\
  forall c, vr k (nodes t') c = if Rb k (nodes o) c then None else vr k (nodes t) c.
Proof.
  intros Ht Ho. unfold m_erase_set.
  destruct (common_at True (fun t (n : Tree.node (D X) unit) => m_erase X k M t (nkey n)) (fun _ _ _ => None) minv t o t) as (t' & E & P & V); auto.
  - intros s n Hs _. destruct (erase_any s (nkey n) Hs) as (s1 & Q1 & Q2 & Q3). exists s1. auto.
  - apply Ht.
  - exists t'. conjs; auto. intros c. rewrite V, Rb_vr; auto. destruct (vr k (nodes o) c); auto.
Qed.

(* ------------------------------------------------------------ intersection *)
Lemma over_range {U} (t : Tree.tree (D X) U) a : inv k t -> ne a -> exists N f p,
  equal_range X k t a = Ok (f, p) /\ srt k N /\ Forall (over k a) N /\ (N = [] -> iter_eqb f p = true) /\
  (N <> [] -> iter_eqb f p = false /\ range X t f p = Ok N) /\
  forall c, inr k a c = true -> vr k (nodes t) c = vr k N c.
Proof.
  intros [W S] Na. destruct (decomp X k HX a (nodes t) S Na) as (L & N & R & E & BL & ON & AR).
  exists N, (Tree.hd_it (N ++ R)), (Tree.hd_it R). conjs.
  - apply (SetWhole.equal_range_at X k HX t L N R); auto.
  - rewrite E in S. apply (srt_parts X k) in S. tauto.
  - auto.
  - intros ->. apply iter_eqb_refl.
  - intros NN. rewrite (iter_eqb_hd X t L N R) by auto. rewrite (range_at X t L N R) by auto. destruct N; auto. congruence.
  - intros c Hc. rewrite E, !(vr_app X k). unfold inr in Hc. apply andb_true_iff in Hc. destruct Hc as [H1 H2]. apply negb_true_iff in H1.
    rewrite (vr_below X k HX L _ c BL), (vr_above X k HX R _ c AR) by auto. cbn. destruct (vr k N c); auto.
Qed.

Definition gand (ci cc : functor) (v : V) (w : V) (o : option V) : option V := ga ci v (ga cc w o).
Lemma part_seg_at s object a v : minv s -> inv k object -> exists s', m_partial_add_intersection X k M s object a v = Ok s' /\ minv s' /\
  forall c, vr k (nodes s') c = if inr k a c then match vr k (nodes object) c with
      | Some w => gand (codomain_intersect M) (codomain_combine M) v w (vr k (nodes s) c) | None => vr k (nodes s) c end
    else vr k (nodes s) c.
Proof.
  intros Hs Ho. unfold m_partial_add_intersection. destruct (is_empty X k a) eqn:Ea.
  { exists s. conjs; auto. intros c. apply (not_ne X k HX) in Ea. unfold inr. ifg; auto. exfalso. cord. }
  assert (Na : ne a) by (apply (ne_iff X k HX); auto).
  destruct (over_range object a Ho Na) as (N & f & p & -> & SN & ON & N0 & N1 & VN). cbn [bind].
  destruct N as [|n0 N'] eqn:EN.
  { rewrite N0 by auto. exists s. conjs; auto. intros c. destruct (inr k a c) eqn:Ec; auto. rewrite VN; auto. }
  rewrite <- EN in *. assert (NN : N <> []) by (rewrite EN; discriminate). destruct (N1 NN) as [-> ->]. cbn [bind].
  match goal with |- context [foldM ?F _ _] => destruct (fold_at (fun s => vr k (nodes s)) minv True F
     (fun w c o => if inr k a c then gand (codomain_intersect M) (codomain_combine M) v w o else o) N SN) with (s := s) as (s' & -> & P & V0) end; auto.
  - intros s0 n H0 Hn. pose proof (srt_in X k M _ _ SN Hn) as Nn.
    destruct (is_empty X k (inter X k (nkey n) a)) eqn:Ei; cbn [negb].
    + exists s0. conjs; auto. intros _ c. apply (not_ne X k HX) in Ei. destruct (inter_obs X k HX (nkey n) a c Nn Na) as (I1 & _).
      destruct (inr k (nkey n) c), (inr k a c); auto. exfalso. unfold inr in I1. cbn in I1. cord.
    + destruct (add_any (codomain_combine M) s0 (inter X k (nkey n) a) (nval n) H0) as (s1 & h1 & -> & Q1 & _ & C1). cbn [bind].
      destruct (add_any (codomain_intersect M) s1 (inter X k (nkey n) a) v Q1) as (s2 & h2 & -> & Q2 & _ & C2). cbn [bind].
      exists s2. conjs; auto. intros _ c. rewrite C2, C1. destruct (inter_obs X k HX (nkey n) a c Nn Na) as (-> & _).
      destruct (inr k (nkey n) c), (inr k a c); auto.
  - exists s'. conjs; auto. intros c. rewrite V0 by auto. destruct (inr k a c) eqn:Ec.
    + rewrite VN; auto.
    + destruct (vr k N c); auto.
Qed.

Definition hok (t0 t : tree) : Prop := minv t /\ (good -> aok (nodes t0) -> aok (nodes t)).
Definition gint (w : V) (o : option V) : option V := ga (codomain_combine M) w o.
Lemma int_itv_at s object a : minv s -> inv k object -> exists s', m_add_intersection_itv X k M s object a = Ok s' /\ minv s' /\
  (good -> aok (nodes s) -> aok (nodes s') /\
   forall c, vr k (nodes s') c = if inr k a c then match vr k (nodes object) c with
      | Some w => ga (codomain_combine M) w (vr k (nodes s) c) | None => vr k (nodes s) c end
    else vr k (nodes s) c).
Proof.
  intros Hs Ho. unfold m_add_intersection_itv. destruct (is_empty X k a) eqn:Ea.
  { exists s. conjs; auto. intros _ A. split; auto. intros c. apply (not_ne X k HX) in Ea. unfold inr. ifg; auto. exfalso. cord. }
  assert (Na : ne a) by (apply (ne_iff X k HX); auto).
  destruct (over_range object a Ho Na) as (N & f & p & -> & SN & ON & N0 & N1 & VN). cbn [bind].
  destruct N as [|n0 N'] eqn:EN.
  { rewrite N0 by auto. exists s. conjs; auto. intros _ A. split; auto. intros c. destruct (inr k a c) eqn:Ec; auto. rewrite VN; auto. }
  rewrite <- EN in *. assert (NN : N <> []) by (rewrite EN; discriminate). destruct (N1 NN) as [-> ->]. cbn [bind].
  match goal with |- context [foldM ?F _ _] => destruct (fold_at (fun s : tree * Tree.iter => vr k (nodes (fst s)))
     (fun s1 => minv (fst s1) /\ isit (fst s1) (snd s1) /\ (good /\ aok (nodes s) -> aok (nodes (fst s1)))) (good /\ aok (nodes s)) F
     (fun w c o => if inr k a c then ga (codomain_combine M) w o else o) N SN) with (s := (s, @None nat)) as ([s' h'] & E & (P1 & P2 & P3) & V0) end; auto.
  - intros [s0 h0] n (H0 & H1 & H2) Hn. cbn [fst snd] in *. pose proof (srt_in X k M _ _ SN Hn) as Nn.
    destruct (is_empty X k (inter X k (nkey n) a)) eqn:Ei; cbn [negb].
    + exists (s0, h0). cbn [fst snd]. conjs; auto. intros _ c. apply (not_ne X k HX) in Ei. destruct (inter_obs X k HX (nkey n) a c Nn Na) as (I1 & _).
      destruct (inr k (nkey n) c), (inr k a c); auto. exfalso. unfold inr in I1. cbn in I1. cord.
    + unfold m_add_hint. destruct (add_hint_any (codomain_combine M) s0 h0 (inter X k (nkey n) a) (nval n) H0 H1) as (s1 & h1 & E1 & Q1 & Q2 & C1).
      exists (s1, h1). cbn [fst snd]. split; auto. split; [split; [auto|split; [auto|]]|].
      * intros Q. eapply aok_chg; [apply gok_ga; apply Q|apply C1; auto; apply Q|auto].
      * intros Q c. rewrite C1 by (auto; apply Q). destruct (inter_obs X k HX (nkey n) a c Nn Na) as (-> & _).
        destruct (inr k (nkey n) c), (inr k a c); auto.
  - cbn [fst snd]. conjs; auto using isit_end. tauto.
  - unfold end_. unfold Tree.iter in *. rewrite E. cbn [bind fst snd] in *. exists s'. conjs; auto. intros Gd A. split; auto. intros c. rewrite V0 by auto. destruct (inr k a c) eqn:Ec.
    + rewrite VN; auto.
    + destruct (vr k N c); auto.
Qed.
Lemma int_set_at s object (o : iset) : minv s -> inv k object -> inv k o -> exists s', m_add_intersection_set X k M s object o = Ok s' /\ minv s' /\
  (good -> aok (nodes s) -> aok (nodes s') /\
   forall c, vr k (nodes s') c = if Rb k (nodes o) c then match vr k (nodes object) c with
      | Some w => ga (codomain_combine M) w (vr k (nodes s) c) | None => vr k (nodes s) c end
    else vr k (nodes s) c).
Proof.
  intros Hs Hob Ho. unfold m_add_intersection_set.
  destruct (common_at (good /\ aok (nodes s)) (fun s (n : Tree.node (D X) unit) => m_add_intersection_itv X k M s object (nkey n))
     (fun _ c o => match vr k (nodes object) c with Some w => ga (codomain_combine M) w o | None => o end)
     (fun s1 => minv s1 /\ (good /\ aok (nodes s) -> aok (nodes s1))) object o s) as (s' & E & (P1 & P2) & V0); auto.
  - intros s0 n (H0 & H1) _. destruct (int_itv_at s0 object (nkey n) H0 Hob) as (s1 & E & Q1 & Q2). exists s1. conjs; auto.
    + intros Q. apply Q2; auto. apply Q.
    + intros Q c. apply Q2; auto. apply Q.
  - conjs; auto. tauto.
  - exists s'. conjs; auto. intros Gd A. split; auto. intros c. rewrite V0; auto.
    + rewrite Rb_vr. destruct (vr k (nodes o) c); auto.
    + intros _ c' ->. auto.
Qed.
Lemma int_key_at s object x : minv s -> inv k object -> has_room X k x -> exists s', m_add_intersection_key X k M s object x = Ok s' /\ minv s' /\
  match vr k (nodes object) (pt X x) with
  | Some w => chg (singleton X k x) (ga (codomain_combine M) w) (nodes s) (nodes s')
  | None => s' = s end.
Proof.
  intros Hs Ho Hx. unfold m_add_intersection_key.
  destruct (find_elem_at X k HX object x Ho Hx) as [(L & n & R & E & En & Hm)|[E Hn]]; rewrite E; cbn [bind iter_eqb end_ negb].
  - pose proof Ho as [W S]. rewrite (val_at X object L n R) by auto. cbn [bind].
    destruct (madd_any s (singleton X k x) (nval n) Hs) as (s1 & -> & Q1 & Q2). exists s1. conjs; auto.
    replace (vr k (nodes object) (pt X x)) with (Some (nval n)); auto. symmetry. apply (vr_some X k HX); auto.
    exists n. conjs; auto. rewrite En. apply in_elt.
  - exists s. conjs; auto. rewrite Rb_vr in Hn. destruct (vr k (nodes object) (pt X x)); auto. discriminate.
Qed.
(** whole intersections *)
Definition gtot (v : V) (w o : option V) : option V :=
  ga (codomain_combine M) v (match w with Some w => ga (codomain_combine M) w o | None => o end).
Lemma int_seg_at s object a v : minv s -> inv k object -> exists s', m_add_intersection_seg X k M s object a v = Ok s' /\ minv s' /\
  (mt_total M = false -> forall c, vr k (nodes s') c = if inr k a c then match vr k (nodes object) c with
      | Some w => gand (codomain_intersect M) (codomain_combine M) v w (vr k (nodes s) c) | None => vr k (nodes s) c end
    else vr k (nodes s) c) /\
  (mt_total M = true -> good -> aok (nodes s) -> aok (nodes s') /\ forall c,
    let o := match vr k (nodes object) c with Some w => ga (codomain_combine M) w (vr k (nodes s) c) | None => vr k (nodes s) c end in
    vr k (nodes s') c = if inr k a c then ga (codomain_combine M) v o else o).
Proof.
  intros Hs Ho. unfold m_add_intersection_seg. destruct (mt_total M) eqn:Et.
  - unfold m_total_add_intersection. destruct (add_map_at s object Hs Ho) as (s1 & -> & Q1 & Q2). cbn [bind].
    destruct (madd_any s1 a v Q1) as (s2 & -> & Q3 & Q4). exists s2. conjs; auto; [discriminate|]. intros _ Gd A. destruct (Q2 Gd A) as [A1 P1]. split.
    + eapply aok_chg; [|exact Q4|auto]. apply gok_ga. apply Gd.
    + intros c. cbv zeta. rewrite Q4, P1. auto.
  - destruct (part_seg_at s object a v Hs Ho) as (s1 & -> & Q1 & Q2). exists s1. conjs; auto. discriminate.
Qed.
Lemma int_map_at s object o : minv s -> inv k object -> inv k o -> exists s', m_add_intersection_map X k M s object o = Ok s' /\ minv s' /\
  (mt_total M = false -> forall c, vr k (nodes s') c = match vr k (nodes object) c, vr k (nodes o) c with
      | Some w, Some v => gand (codomain_intersect M) (codomain_combine M) v w (vr k (nodes s) c) | _, _ => vr k (nodes s) c end) /\
  (mt_total M = true -> good -> aok (nodes s) -> aok (nodes s') /\ forall c,
    let u := match vr k (nodes object) c with Some w => ga (codomain_combine M) w (vr k (nodes s) c) | None => vr k (nodes s) c end in
    vr k (nodes s') c = match vr k (nodes o) c with Some v => ga (codomain_combine M) v u | None => u end).
Proof.
  intros Hs Hob Ho. unfold m_add_intersection_map. destruct (mt_total M) eqn:Et.
  - destruct (add_map_at s object Hs Hob) as (s1 & -> & Q1 & Q2). cbn [bind].
    destruct (add_map_at s1 o Q1 Ho) as (s2 & -> & Q3 & Q4). exists s2. conjs; auto; [discriminate|]. intros _ Gd A. destruct (Q2 Gd A) as [A1 P1].
    destruct (Q4 Gd A1) as [A2 P2]. split; auto. intros c. cbv zeta. rewrite P2, P1. auto.
  - destruct (common_at True (fun s (n : node) => m_add_intersection_seg X k M s object (nkey n) (nval n))
     (fun v c o => match vr k (nodes object) c with Some w => gand (codomain_intersect M) (codomain_combine M) v w o | None => o end)
     minv object o s) as (s' & E & P1 & V0); auto.
    + intros s0 n H0 _. destruct (int_seg_at s0 object (nkey n) (nval n) H0 Hob) as (s1 & E & Q1 & Q2 & _). exists s1. auto.
    + exists s'. conjs; auto; [|discriminate]. intros _ c. rewrite V0; auto.
      * destruct (vr k (nodes o) c), (vr k (nodes object) c); auto.
      * intros w c' ->. auto.
Qed.
End MapWhole.
