From Verif Require Import BaseLemmas Spec Trace Nodes Proof_Nodes Spec_List Model_DList Proof_DList Model_DListQueue Props_DList Model_Window Spec_Window.

(** One call on a queue. *)
Section Call.
Context {E : Type}.
Variable z : E.
Variable h0 : list (dnode E).
Lemma q_call (o : qop E) xs s : QRel h0 xs s -> fst (queue_step z o s) = fst (queue_spec z o xs) /\ QRel h0 (snd (queue_spec z o xs)) (snd (queue_step z o s)).
Proof.
  intros R. destruct (queue_sim z h0 [o] xs s R) as [A B]. cbn [run] in A, B. destruct (queue_step z o s) as [r s1], (queue_spec z o xs) as [r' x1]. cbn [fst snd] in *. split; auto. now injection A.
Qed.
Lemma call_of {A} (f : A -> obs E) (p : P (dnode E) dqueue A) (o : qop E) xs s r : QRel h0 xs s -> queue_step z o = observe f p ->
  (forall a b, f a = f b -> a = b) -> fst (queue_spec z o xs) = Ok (f r) -> exists s', p s = (Ok r, s') /\ QRel h0 (snd (queue_spec z o xs)) s'.
Proof.
  intros R D I E1. destruct (q_call o xs s R) as [A0 B]. rewrite D in A0, B. unfold observe in A0, B. rewrite E1 in A0. destruct (p s) as [[a| |] s']; cbn in *; try discriminate.
  injection A0 as A0. apply I in A0 as ->. eauto.
Qed.
Lemma w_len xs s : QRel h0 xs s -> exists s', q_Len s = (Ok (zlen xs), s') /\ QRel h0 xs s'.
Proof. intros R. apply (call_of OInt q_Len QLen xs s _ R eq_refl); [now injection 1|reflexivity]. Qed.
Lemma w_empty xs s : QRel h0 xs s -> exists s', q_IsEmpty s = (Ok (zlen xs =? 0), s') /\ QRel h0 xs s'.
Proof. intros R. apply (call_of OBool q_IsEmpty QIsEmpty xs s _ R eq_refl); [now injection 1|reflexivity]. Qed.
Lemma w_front x xs s : QRel h0 (x :: xs) s -> exists s', q_Front s = (Ok x, s') /\ QRel h0 (x :: xs) s'.
Proof. intros R. apply (call_of OVal q_Front QFront (x :: xs) s _ R eq_refl); [now injection 1|reflexivity]. Qed.
Lemma w_back x xs s : QRel h0 (xs ++ [x]) s -> exists s', q_Back s = (Ok x, s') /\ QRel h0 (xs ++ [x]) s'.
Proof. intros R. apply (call_of OVal q_Back QBack (xs ++ [x]) s _ R eq_refl); [now injection 1|]. cbn. rewrite rev_app_distr. reflexivity. Qed.
Lemma w_popfront x xs s : QRel h0 (x :: xs) s -> exists s', q_PopFront z s = (Ok x, s') /\ QRel h0 xs s'.
Proof. intros R. apply (call_of OVal (q_PopFront z) QPopFront (x :: xs) s _ R eq_refl); [now injection 1|reflexivity]. Qed.
Lemma w_popback x xs s : QRel h0 (xs ++ [x]) s -> exists s', q_PopBack z s = (Ok x, s') /\ QRel h0 xs s'.
Proof.
  intros R. destruct (call_of OVal (q_PopBack z) QPopBack (xs ++ [x]) s x R eq_refl) as (s' & A & B); [now injection 1|cbn; rewrite rev_app_distr; reflexivity|].
  exists s'. split; auto. cbn in B. now rewrite removelast_last in B.
Qed.
Lemma w_pushback x xs s : QRel h0 xs s -> exists s', q_PushBack z x s = (Ok tt, s') /\ QRel h0 (xs ++ [x]) s'.
Proof. intros R. apply (call_of (fun _ => ONone) (q_PushBack z x) (QPushBack x) xs s tt R eq_refl); [now intros [] []|reflexivity]. Qed.
Lemma w_front_nil s : QRel h0 [] s -> exists s', q_Front s = (Panic, s').
Proof.
  intros R. destruct (q_call QFront [] s R) as [A _]. cbn [queue_step queue_spec fst first_or] in A. unfold observe in A. destruct (q_Front s) as [[a| |] s']; cbn in A; try discriminate. eauto.
Qed.
End Call.

Section WindowProof.
Context {T : Type}.
Variable zero : T.
Variable less : T -> T -> bool.
Hypothesis SW : strict_weak less.
Variable h0 : list (dnode (Z * T)).
Notation rel := (QRel h0).

(** What the queue holds after the elements [pre], for windows that begin at [lo]: the
    elements that no later element is greater than. *)
Definition cands (lo : Z) (pre : list T) (l : list (Z * T)) : Prop :=
  (forall j x, In (j, x) l -> zget pre j = Some x /\ lo <= j /\ forall k y, j < k -> zget pre k = Some y -> less x y = false) /\
  (forall k y, lo <= k -> zget pre k = Some y -> In (k, y) l \/ exists k2 y2, k < k2 /\ zget pre k2 = Some y2 /\ less y y2 = true) /\
  strictly_sorted_by (fun a b : Z * T => fst a <? fst b) l.

Lemma drop_ok v l : forall s, rel l s -> (forall i j a b, 0 <= i < j -> zget l i = Some a -> zget l j = Some b -> less (snd a) (snd b) = false) ->
  exists l1 l2 s', drop_less zero less (length l) v s = (Ok tt, s') /\ rel l1 s' /\ l = l1 ++ l2 /\
    (forall a, In a l1 -> less (snd a) v = false) /\ (forall a, In a l2 -> less (snd a) v = true).
Proof.
  induction l as [|b l IH] using rev_ind; intros s R D.
  - cbn [drop_less length]. destruct (w_empty (0, zero) h0 _ _ R) as (s1 & E1 & R1). unfold bind. rewrite E1. exists [], [], s1. split; [reflexivity|]. split; [exact R1|]. split; [reflexivity|]. split; intros a [].
  - rewrite app_length, Nat.add_1_r. cbn [drop_less]. destruct (w_empty (0, zero) h0 _ _ R) as (s1 & E1 & R1). unfold bind at 1. rewrite E1.
    replace (zlen (l ++ [b]) =? 0) with false by (rewrite zlen_app; change (zlen [b]) with 1; pose proof (zlen_nonneg l); lia).
    destruct (w_back (0, zero) h0 _ _ _ R1) as (s2 & E2 & R2). unfold bind at 1. rewrite E2. destruct (less (snd b) v) eqn:L; cbn [negb].
    + destruct (w_popback (0, zero) h0 _ _ _ R2) as (s3 & E3 & R3). unfold bind at 1. rewrite E3.
      destruct (IH s3 R3) as (l1 & l2 & s' & E & R' & -> & A & B).
      { intros i j x y H Gi Gj. pose proof (zget_Some_range _ _ _ Gj). apply (D i j); auto; rewrite zget_app_l by lia; auto. }
      exists l1, (l2 ++ [b]), s'. split; [exact E|]. split; [exact R'|]. split; [now rewrite app_assoc|]. split; auto. intros a I. apply in_app_iff in I as [I|[<- |[]]]; auto.
    + exists (l ++ [b]), [], s2. split; [reflexivity|]. split; [exact R2|]. split; [now rewrite app_nil_r|]. split; [|intros a []].
      intros a I. apply in_app_iff in I as [I|[<- |[]]]; auto. apply in_zget in I as (i & Hi & G).
      apply (sw_negtrans _ SW _ (snd b)); auto. apply (D i (zlen l)); [lia|now rewrite zget_app_l by lia|]. rewrite zget_app_r, Z.sub_diag by lia. reflexivity.
Qed.

Lemma cands_down lo pre l : cands lo pre l -> forall i j a b, 0 <= i < j -> zget l i = Some a -> zget l j = Some b -> less (snd a) (snd b) = false.
Proof.
  clear SW. intros (A & _ & C) i j [p x] [q y] H Gi Gj. specialize (C _ _ _ _ H Gi Gj). cbn in *.
  assert (Ii : In (p, x) l) by (apply in_zget; exists i; split; auto; eapply zget_Some_range; eauto).
  assert (Ij : In (q, y) l) by (apply in_zget; exists j; split; auto; eapply zget_Some_range; eauto).
  destruct (A _ _ Ii) as (_ & _ & F). destruct (A _ _ Ij) as (G & _). apply (F q); auto. lia.
Qed.
Lemma zget_snoc (pre : list T) v k y : zget (pre ++ [v]) k = Some y -> (k < zlen pre /\ zget pre k = Some y) \/ (k = zlen pre /\ y = v).
Proof.
  clear. intros G. pose proof (zget_Some_range _ _ _ G) as H. rewrite zlen_app in H. change (zlen [v]) with 1 in H. destruct (Z.eq_dec k (zlen pre)) as [-> |N].
  - rewrite zget_app_r, Z.sub_diag in G by lia. injection G as <-. auto.
  - rewrite zget_app_l in G by lia. left. split; auto. lia.
Qed.
Lemma zget_snoc_l (pre : list T) v k y : zget pre k = Some y -> zget (pre ++ [v]) k = Some y.
Proof. clear. intros G. pose proof (zget_Some_range _ _ _ G). now rewrite zget_app_l by lia. Qed.
Lemma zget_snoc_r (pre : list T) v : zget (pre ++ [v]) (zlen pre) = Some v.
Proof. clear. rewrite zget_app_r, Z.sub_diag by lia. reflexivity. Qed.
Lemma cands_push lo pre l1 l2 v : cands lo pre (l1 ++ l2) -> lo <= zlen pre -> (forall a, In a l1 -> less (snd a) v = false) -> (forall a, In a l2 -> less (snd a) v = true) ->
  cands lo (pre ++ [v]) (l1 ++ [(zlen pre, v)]).
Proof.
  clear SW. intros (A & B & C) Lo H1 H2. split; [|split].
  - intros j x I. apply in_app_iff in I as [I|[E|[]]].
    + destruct (A j x) as (G & L & F); [apply in_app_iff; auto|]. split; [now apply zget_snoc_l|]. split; auto. intros k y Hk Gk. apply zget_snoc in Gk as [[_ Gk]|[_ ->]]; [eapply F; eauto|]. apply (H1 (j, x) I).
    + injection E as <- <-. split; [apply zget_snoc_r|]. split; auto. intros k y Hk Gk. apply zget_snoc in Gk as [[Lk _]|[-> _]]; lia.
  - intros k y L G. apply zget_snoc in G as [[Lk G]|[-> ->]]; [|left; apply in_app_iff; right; now left].
    destruct (B k y L G) as [I|(k2 & y2 & K & G2 & Le)]; [|right; exists k2, y2; split; auto; split; auto; now apply zget_snoc_l].
    apply in_app_iff in I as [I|I]; [left; apply in_app_iff; auto|]. right. exists (zlen pre), v. split; auto. split; [apply zget_snoc_r|]. apply (H2 (k, y) I).
  - intros i j a b H Gi Gj. pose proof (zget_Some_range _ _ _ Gj) as R. rewrite zlen_app in R. change (zlen [(zlen pre, v)]) with 1 in R. rewrite zget_app_l in Gi by lia.
    destruct (Z.eq_dec j (zlen l1)) as [-> |N].
    + rewrite zget_app_r, Z.sub_diag in Gj by lia. injection Gj as <-. destruct a as [p x]. destruct (A p x) as (G & _); [apply in_app_iff; left; apply in_zget; exists i; split; [lia|auto]|]. apply zget_Some_range in G. cbn. lia.
    + rewrite zget_app_l in Gj by lia. apply (C i j); auto; rewrite zget_app_l by lia; auto.
Qed.
Lemma cands_later lo pre p x l : cands lo pre ((p, x) :: l) -> p <= lo -> cands (lo + 1) pre l.
Proof.
  clear SW. intros (A & B & C) L. destruct (A p x (or_introl eq_refl)) as (_ & Lp & _). assert (p = lo) by lia. subst p. split; [|split].
  - intros j y I. destruct (A j y (or_intror I)) as (G & _ & F). split; auto. split; auto. apply in_zget in I as (i & Hi & Gi).
    assert (K : fst (lo, x) <? fst (j, y) = true) by (apply (C 0 (i + 1)); [lia|reflexivity|]; rewrite zget_cons_S by lia; now rewrite Z.add_simpl_r). cbn in K. lia.
  - intros k y K G. destruct (B k y ltac:(lia) G) as [[E|I]|R]; auto. injection E as -> ->. lia.
  - intros i j a b H Gi Gj. apply (C (i + 1) (j + 1)); [lia| |]; rewrite zget_cons_S by lia; now rewrite Z.add_simpl_r.
Qed.
Lemma cands_same lo pre p x l : cands lo pre ((p, x) :: l) -> lo < p -> cands (lo + 1) pre ((p, x) :: l).
Proof.
  clear SW. intros (A & B & C) L. split; [|split; auto].
  - intros j y I. destruct (A j y I) as (G & _ & F). split; auto. split; auto. destruct I as [E|I]; [injection E as -> ->; lia|]. apply in_zget in I as (i & Hi & Gi).
    assert (K : fst (p, x) <? fst (j, y) = true) by (apply (C 0 (i + 1)); [lia|reflexivity|]; rewrite zget_cons_S by lia; now rewrite Z.add_simpl_r). cbn in K. lia.
  - intros k y K G. apply B; auto. lia.
Qed.
Lemma cands_front lo pre p x l : cands lo pre ((p, x) :: l) -> first_max less pre lo (zlen pre) x.
Proof.
  intros (A & B & C). destruct (A p x (or_introl eq_refl)) as (G & L & F). pose proof (zget_Some_range _ _ _ G) as R. exists p. split; [lia|]. split; auto.
  assert (E : forall n k y, p - k = Z.of_nat n -> lo <= k < p -> zget pre k = Some y -> less y x = true).
  { induction n as [n IH] using (well_founded_induction Nat.lt_wf_0). intros k y En Hk Gk. destruct (B k y ltac:(lia) Gk) as [[Eq|I]|(k2 & y2 & K & G2 & Le)].
    - injection Eq as -> ->. lia.
    - apply in_zget in I as (i & Hi & Gi). assert (K : fst (p, x) <? fst (k, y) = true) by (apply (C 0 (i + 1)); [lia|reflexivity|]; rewrite zget_cons_S by lia; now rewrite Z.add_simpl_r). cbn in K. lia.
    - destruct (Z.lt_trichotomy k2 p) as [H|[-> |H]].
      + apply (sw_trans _ SW y y2 x); auto. apply (IH (Z.to_nat (p - k2)) ltac:(lia) k2 y2); auto; lia.
      + rewrite G in G2. injection G2 as <-. auto.
      + destruct (less y x) eqn:N; auto. rewrite (sw_negtrans _ SW y x y2 N (F k2 y2 H G2)) in Le. discriminate. }
  intros k y Hk Gk. split; [|intros K; apply (E (Z.to_nat (p - k)) k y); auto; lia].
  destruct (Z.lt_trichotomy k p) as [H|[-> |H]].
  - pose proof (E (Z.to_nat (p - k)) k y ltac:(lia) ltac:(lia) Gk) as Ly. destruct (less x y) eqn:N; auto. rewrite <- (sw_irrefl _ SW x). symmetry. eapply (sw_trans _ SW); eauto.
  - rewrite G in Gk. injection Gk as <-. apply (sw_irrefl _ SW).
  - apply (F k y H Gk).
Qed.
Lemma first_max_app pre r lo x : first_max less pre lo (zlen pre) x -> first_max less (pre ++ r) lo (zlen pre) x.
Proof.
  clear SW. intros (j & H & G & F). exists j. split; auto. split; [now rewrite zget_app_l by lia|]. intros k y Hk Gk. apply F; auto. now rewrite zget_app_l in Gk by lia.
Qed.

Lemma slide_ok w vs : 1 <= w -> forall pre l s out, rel l s -> cands (zlen pre - w) pre l -> window_maxima less w pre out ->
  exists r s', slide zero less w (zlen pre) vs out s = (Ok r, s') /\ window_maxima less w (pre ++ vs) r.
Proof.
  intros Hw. induction vs as [|v vs IH]; intros pre l s out R C W; cbn [slide].
  - exists out, s. rewrite app_nil_r. auto.
  - pose proof (zlen_nonneg pre) as N0.
    destruct (w_len (0, zero) h0 _ _ R) as (s1 & E1 & R1). unfold bind at 1. rewrite E1. unfold zlen at 1. rewrite Nat2Z.id.
    destruct (drop_ok v l s1 R1 (cands_down _ _ _ C)) as (l1 & l2 & s2 & E2 & R2 & -> & H1 & H2). unfold bind at 1. rewrite E2.
    destruct (w_pushback (0, zero) h0 (zlen pre, v) _ _ R2) as (s3 & E3 & R3). unfold bind at 1. rewrite E3.
    pose proof (cands_push _ _ _ _ v C ltac:(lia) H1 H2) as C3.
    assert (K : exists l4 s4, (f <- q_Front ;; (if fst f <=? zlen pre - w then _ <- q_PopFront (0, zero) ;; ret tt else ret tt)) s3 = (Ok tt, s4) /\ rel l4 s4 /\ cands (zlen pre - w + 1) (pre ++ [v]) l4 /\ In (zlen pre, v) l4).
    { destruct (l1 ++ [(zlen pre, v)]) as [|[p x] l4] eqn:El; [now destruct l1|].
      assert (I : In (zlen pre, v) ((p, x) :: l4)) by (rewrite <- El; apply in_app_iff; right; now left).
      destruct (w_front (0, zero) h0 _ _ _ R3) as (s4 & E4 & R4). unfold bind at 1. rewrite E4. cbn [fst]. destruct (Z.leb_spec p (zlen pre - w)) as [Lp|Lp].
      - destruct (w_popfront (0, zero) h0 _ _ _ R4) as (s5 & E5 & R5). unfold bind at 1. rewrite E5. exists l4, s5. split; [reflexivity|]. split; auto. split; [eapply cands_later; eauto|]. destruct I as [E|I]; auto. injection E as E _. lia.
      - exists ((p, x) :: l4), s4. split; [reflexivity|]. split; auto. split; auto. now apply cands_same. }
    destruct K as (l4 & s4 & E4 & R4 & C4 & I4).
    assert (Z1 : zlen (pre ++ [v]) = zlen pre + 1) by (rewrite zlen_app; reflexivity).
    unfold bind in E4 |- *. destruct (q_Front s3) as [[f| |] s3'] eqn:Ef; try discriminate.
    match type of E4 with ?p s3' = _ => match goal with |- context[match ?q s3' with _ => _ end] => change (q s3') with (p s3') end end. rewrite E4.
    replace (pre ++ v :: vs) with ((pre ++ [v]) ++ vs) by (now rewrite <- app_assoc).
    replace (zlen pre - w + 1) with (zlen (pre ++ [v]) - w) in C4 by lia.
    destruct W as [WL WM]. destruct (Z.geb_spec (zlen pre + 1) w) as [G|G].
    + destruct l4 as [|[p x] l4]; [destruct I4|]. destruct (w_front (0, zero) h0 _ _ _ R4) as (s6 & E6 & R6). rewrite E6. rewrite <- Z1. cbn [snd].
      apply (IH _ ((p, x) :: l4)); auto. split; [rewrite zlen_app, Z1; change (zlen [x]) with 1; lia|].
      intros i y Gy. apply zget_snoc in Gy as [[Li Gy]|[-> ->]].
      * destruct (WM i y Gy) as (j & Hj & Gj & Fj). exists j. split; auto. split; [now apply zget_snoc_l|]. pose proof (zget_Some_range _ _ _ Gy) as Ri.
        intros k t Hk Gk. apply zget_snoc in Gk as [[_ Gk]|[-> _]]; [eauto|lia].
      * replace (zlen out) with (zlen (pre ++ [v]) - w) by lia. replace (zlen (pre ++ [v]) - w + w) with (zlen (pre ++ [v])) by lia. eapply cands_front; eauto.
    + rewrite <- Z1. apply (IH _ l4); auto. split; [lia|]. intros i y Gy. pose proof (zget_Some_range _ _ _ Gy). lia.
Qed.
End WindowProof.
