(** Lemmas for C102. *)
From Verif Require Import BaseLemmas Proof_Mem Spec_LookupFx Model_TransformFx Proof_TransformFx Model_LookupFx.

Section LFx.
Context {T St : Type}.
Notation W := (world_of T St).
Implicit Types (f : T -> M W bool) (a : slice) (w : W).

Lemma shape_wf (m m' : mem T) a : same_shape m m' -> wf_slice m a -> wf_slice m' a.
Proof using Type.
  intros H (H1 & H2 & H3 & H4). unfold arr_of in H4.
  destruct (nth_error m (s_arr a)) as [s|] eqn:E; [|apply nth_error_None in E; lia].
  destruct (H _ _ E) as (s' & E' & L).
  assert (s_arr a < length m')%nat by (apply nth_error_Some; rewrite E'; discriminate).
  split; [auto|]. split; [auto|]. split; [auto|]. unfold arr_of.
  rewrite (nth_error_nth _ _ _ E'). rewrite (nth_error_nth _ _ _ E) in H4. unfold zlen in *. lia.
Qed.

Lemma load_next {A} a w i (k : T -> M W A) : wf_slice (fst w) a -> 0 <= i < s_len a ->
  exists x, zget (contents (fst w) a) i = Some x /\ bind (own (sload a i)) k w = k x w.
Proof using Type.
  intros Hw Hi. destruct w as [m st]. cbn [fst] in *.
  destruct (zget (contents m a) i) as [x|] eqn:E.
  - exists x. split; [reflexivity|]. exact (bind_own _ _ _ _ _ _ (sload_ok m a i x Hw E)).
  - apply zget_None in E. rewrite (zlen_contents m a Hw) in E. lia.
Qed.

Definition from (b : bool) (i n : Z) : list (Z * bool) := map (fun k => (i + Z.of_nat k, b)) (seq 0 (Z.to_nat n)).
Lemma from_0 b n : from b 0 n = all_answered b n.
Proof using Type. reflexivity. Qed.
Lemma from_cons b i n : 0 < n -> from b i n = (i, b) :: from b (i + 1) (n - 1).
Proof using Type.
  intros H. unfold from. replace (Z.to_nat n) with (S (Z.to_nat (n - 1))) by lia. cbn [seq map].
  f_equal; [f_equal; lia|]. rewrite <- seq_shift, map_map. apply map_ext. intros k. f_equal. lia.
Qed.
Lemma from_nil b i n : n <= 0 -> from b i n = [].
Proof using Type. intros H. unfold from. now replace (Z.to_nat n) with O by lia. Qed.

(** A linear scan until the answer is [stop]. *)
Fixpoint scan (stop : bool) f a (n : nat) (i : Z) : M W (option Z) :=
  match n with
  | O => ret None
  | S n' =>
    v <- own (sload a i) ;;
    c <- f v ;;
    if Bool.eqb c stop then ret (Some i) else scan stop f a n' (i + 1)
  end.

Lemma scan_ok stop f a : go_code f -> forall n i w, wf_slice (fst w) a -> 0 <= i -> i + Z.of_nat n = s_len a ->
  match scan stop f a n i w with
  | (Ok None, w') => asks f a w (from (negb stop) i (Z.of_nat n)) w'
  | (Ok (Some j), w') => i <= j < s_len a /\ asks f a w (from (negb stop) i (j - i) ++ [(j, stop)]) w'
  | (Panic, w') => exists j w1, i <= j < s_len a /\ asks f a w (from (negb stop) i (j - i)) w1 /\ fails f a j w1 Panic w'
  | (NoFuel, w') => exists j w1, i <= j < s_len a /\ asks f a w (from (negb stop) i (j - i)) w1 /\ fails f a j w1 NoFuel w'
  end.
Proof using Type.
  intros G. induction n as [|n IH]; intros i w Hw Hi Hn.
  { cbn. apply asks_none. }
  cbn [scan].
  destruct (load_next a w i (fun v => bind (f v) (fun c => if Bool.eqb c stop then ret (Some i) else scan stop f a n (i + 1))) Hw) as (x & Hx & E); [lia|].
  rewrite E. clear E. unfold bind at 1. pose proof (G x w) as Gx.
  destruct (f x w) as [[c| |] w1] eqn:F; cbn [fst snd] in Gx.
  2,3: exists i, w; split; [lia|]; rewrite Z.sub_diag, from_nil by lia; split; [apply asks_none|]; exists x; now split.
  destruct (Bool.eqb c stop) eqn:B.
  - apply Bool.eqb_prop in B. subst c. cbn. split; [lia|]. rewrite Z.sub_diag, from_nil by lia. cbn [app].
    eapply asks_next; eauto. apply asks_none.
  - assert (c = negb stop) by (destruct c, stop; cbn in *; congruence). subst c.
    assert (Hw1 : wf_slice (fst w1) a) by (eapply shape_wf; eauto).
    specialize (IH (i + 1) w1 Hw1 ltac:(lia) ltac:(lia)).
    destruct (scan stop f a n (i + 1) w1) as [[[j|]| |] w'].
    + destruct IH as [Hj A]. split; [lia|]. rewrite from_cons by lia.
      replace (j - i - 1) with (j - (i + 1)) by lia. cbn [app]. eapply asks_next; eauto.
    + rewrite from_cons by lia. replace (Z.of_nat (S n) - 1) with (Z.of_nat n) by lia. eapply asks_next; eauto.
    + destruct IH as (j & w2 & Hj & A & Fl). exists j, w2. split; [lia|]. split; [|exact Fl].
      rewrite from_cons by lia. replace (j - i - 1) with (j - (i + 1)) by lia. eapply asks_next; eauto.
    + destruct IH as (j & w2 & Hj & A & Fl). exists j, w2. split; [lia|]. split; [|exact Fl].
      rewrite from_cons by lia. replace (j - i - 1) with (j - (i + 1)) by lia. eapply asks_next; eauto.
Qed.

Lemma bind_assoc_at {A B C} (p : M W A) (q : A -> M W B) (r : B -> M W C) w :
  bind (bind p q) r w = bind p (fun x => bind (q x) r) w.
Proof using Type. unfold bind. destruct (p w) as [[x| |] w1]; reflexivity. Qed.
Lemma bind_ext_at {A B} (p : M W A) (q q' : A -> M W B) w : (forall x w1, q x w1 = q' x w1) -> bind p q w = bind p q' w.
Proof using Type. intros H. unfold bind. destruct (p w) as [[x| |] w1]; auto. Qed.

Lemma find_scan f a n : forall i w,
  FindIfFx_loop f a n i w = bind (scan true f a n i) (fun o => ret (match o with Some j => (j, true) | None => (-1, false) end)) w.
Proof using Type.
  induction n as [|n IH]; intros i w; [reflexivity|]. cbn [FindIfFx_loop scan]. rewrite bind_assoc_at. apply bind_ext_at.
  intros x w1. rewrite bind_assoc_at. apply bind_ext_at. intros [] w2; cbn [Bool.eqb]; [reflexivity|apply IH].
Qed.
Lemma any_scan f a n : forall i w,
  AnyOfFx_loop f a n i w = bind (scan true f a n i) (fun o => ret (match o with Some j => true | None => false end)) w.
Proof using Type.
  induction n as [|n IH]; intros i w; [reflexivity|]. cbn [AnyOfFx_loop scan]. rewrite bind_assoc_at. apply bind_ext_at.
  intros x w1. rewrite bind_assoc_at. apply bind_ext_at. intros [] w2; cbn [Bool.eqb]; [reflexivity|apply IH].
Qed.
Lemma all_scan f a n : forall i w,
  AllOfFx_loop f a n i w = bind (scan false f a n i) (fun o => ret (match o with Some j => false | None => true end)) w.
Proof using Type.
  induction n as [|n IH]; intros i w; [reflexivity|]. cbn [AllOfFx_loop scan]. rewrite bind_assoc_at. apply bind_ext_at.
  intros x w1. rewrite bind_assoc_at. apply bind_ext_at. intros [] w2; cbn [Bool.eqb negb]; [apply IH|reflexivity].
Qed.

(** The scan from the start. *)
Lemma scan_0 stop f a w : go_code f -> wf_slice (fst w) a ->
  match scan stop f a (Z.to_nat (s_len a)) 0 w with
  | (Ok None, w') => asks f a w (all_answered (negb stop) (s_len a)) w'
  | (Ok (Some j), w') => 0 <= j < s_len a /\ asks f a w (all_answered (negb stop) j ++ [(j, stop)]) w'
  | (Panic, w') => exists j w1, 0 <= j < s_len a /\ asks f a w (all_answered (negb stop) j) w1 /\ fails f a j w1 Panic w'
  | (NoFuel, w') => exists j w1, 0 <= j < s_len a /\ asks f a w (all_answered (negb stop) j) w1 /\ fails f a j w1 NoFuel w'
  end.
Proof using Type.
  intros G Hw. pose proof Hw as (_ & _ & H & _).
  pose proof (scan_ok stop f a G (Z.to_nat (s_len a)) 0 w Hw ltac:(lia) ltac:(lia)) as S.
  rewrite Z2Nat.id in S by lia.
  destruct (scan stop f a (Z.to_nat (s_len a)) 0 w) as [[[j|]| |] w'].
  - rewrite Z.sub_0_r in S. exact S.
  - exact S.
  - destruct S as (j & w1 & S). rewrite Z.sub_0_r in S. eauto.
  - destruct S as (j & w1 & S). rewrite Z.sub_0_r in S. eauto.
Qed.

(** CountIf. *)
Definition nums (i : Z) (bs : list bool) : list (Z * bool) := combine (map (fun k => i + Z.of_nat k) (seq 0 (length bs))) bs.
Lemma nums_cons i b bs : nums i (b :: bs) = (i, b) :: nums (i + 1) bs.
Proof using Type.
  unfold nums. cbn [length seq map combine]. f_equal; [f_equal; lia|].
  f_equal. rewrite <- seq_shift, map_map. apply map_ext. intros k. lia.
Qed.
Lemma count_loop_ok f a : go_code f -> forall n i c w, wf_slice (fst w) a -> 0 <= i -> i + Z.of_nat n = s_len a ->
  match CountIfFx_loop f a n i c w with
  | (Ok r, w') => exists bs, length bs = n /\ r = c + count_true bs /\ asks f a w (nums i bs) w'
  | (Panic, w') => exists bs w1, i + zlen bs < s_len a /\ asks f a w (nums i bs) w1 /\ fails f a (i + zlen bs) w1 Panic w'
  | (NoFuel, w') => exists bs w1, i + zlen bs < s_len a /\ asks f a w (nums i bs) w1 /\ fails f a (i + zlen bs) w1 NoFuel w'
  end.
Proof using Type.
  intros G. induction n as [|n IH]; intros i c w Hw Hi Hn.
  { cbn. exists []. cbn. split; [auto|]. split; [lia|]. apply asks_none. }
  cbn [CountIfFx_loop].
  destruct (load_next a w i (fun v => bind (f v) (fun b : bool => CountIfFx_loop f a n (i + 1) (if b then c + 1 else c))) Hw) as (x & Hx & E); [lia|].
  rewrite E. clear E. unfold bind at 1. pose proof (G x w) as Gx.
  destruct (f x w) as [[b| |] w1] eqn:F; cbn [fst snd] in Gx.
  2,3: exists [], w; change (zlen (@nil bool)) with 0; rewrite Z.add_0_r; split; [lia|]; split; [apply asks_none|]; exists x; now split.
  assert (Hw1 : wf_slice (fst w1) a) by (eapply shape_wf; eauto).
  specialize (IH (i + 1) (if b then c + 1 else c) w1 Hw1 ltac:(lia) ltac:(lia)).
  assert (Z1 : forall bs, i + zlen (b :: bs) = i + 1 + zlen bs) by (intros; rewrite zlen_cons; lia).
  destruct (CountIfFx_loop f a n (i + 1) (if b then c + 1 else c) w1) as [[r| |] w'].
  - destruct IH as (bs & L & R & A). exists (b :: bs). split; [cbn; lia|]. split; [cbn; destruct b; lia|].
    rewrite nums_cons. eapply asks_next; eauto.
  - destruct IH as (bs & w2 & L & A & Fl). exists (b :: bs), w2. rewrite Z1. split; [lia|]. split; [|exact Fl].
    rewrite nums_cons. eapply asks_next; eauto.
  - destruct IH as (bs & w2 & L & A & Fl). exists (b :: bs), w2. rewrite Z1. split; [lia|]. split; [|exact Fl].
    rewrite nums_cons. eapply asks_next; eauto.
Qed.

(** Binary search going right when the answer is [p]. *)
Fixpoint halve (p : bool) f a (fuel : nat) (loc count : Z) : M W Z :=
  if count >? 0 then
    match fuel with
    | O => fun w => (NoFuel, w)
    | S fuel' =>
      v <- own (sload a (loc + Z.quot count 2)) ;;
      c <- f v ;;
      if Bool.eqb c p then halve p f a fuel' (loc + Z.quot count 2 + 1) (count - (Z.quot count 2 + 1))
      else halve p f a fuel' loc (Z.quot count 2)
    end
  else ret loc.
Definition within (p : bool) (lo n r : Z) (l : list (Z * bool)) : Prop :=
  lo <= r <= lo + n /\ NoDup (map fst l) /\
  (forall i b, In (i, b) l -> lo <= i < lo + n /\ b = if i <? r then p else negb p) /\
  (lo < r -> In (r - 1, p) l) /\ (r < lo + n -> In (r, negb p) l).
Definition bounded (n : Z) (k : nat) : Prop := forall e : nat, n < 2 ^ Z.of_nat e -> (k <= e)%nat.

Lemma bounded_0 n : bounded n 0.
Proof using Type. intros e _. lia. Qed.
Lemma bounded_S n n' k : 0 < n -> 0 <= n' -> 2 * n' <= n -> bounded n' k -> bounded n (S k).
Proof using Type.
  intros H H' L B e He. destruct e as [|e]; [cbn in He; lia|].
  assert (k <= e)%nat; [|lia]. apply B. rewrite Nat2Z.inj_succ, Z.pow_succ_r in He by lia. lia.
Qed.
Lemma bounded_few n k : 0 <= n -> bounded n k -> few n k.
Proof using Type.
  intros H B. unfold few. destruct (Z.eqb_spec n 0).
  - subst. specialize (B O). cbn in B. lia.
  - pose proof (Z.log2_nonneg n). specialize (B (Z.to_nat (Z.log2 n + 1))). rewrite Z2Nat.id in B by lia.
    assert (k <= Z.to_nat (Z.log2 n + 1))%nat; [|lia]. apply B. pose proof (Z.log2_spec n). unfold Z.succ in *. lia.
Qed.
Lemma one_bounded n : 0 < n -> bounded n 1.
Proof using Type. intros H. apply (bounded_S n 0); try lia. apply bounded_0. Qed.

Lemma halve_ok p f a : go_code f -> forall fuel loc count w,
  wf_slice (fst w) a -> 0 <= loc -> 0 <= count -> loc + count <= s_len a -> count <= Z.of_nat fuel ->
  match halve p f a fuel loc count w with
  | (Ok r, w') => exists l, asks f a w l w' /\ within p loc count r l /\ bounded count (length l)
  | (Panic, w') => exists l i w1, asks f a w l w1 /\ loc <= i < loc + count /\ ~ In i (map fst l) /\ bounded count (S (length l)) /\ fails f a i w1 Panic w'
  | (NoFuel, w') => exists l i w1, asks f a w l w1 /\ loc <= i < loc + count /\ ~ In i (map fst l) /\ bounded count (S (length l)) /\ fails f a i w1 NoFuel w'
  end.
Proof using Type.
  intros G. induction fuel as [|fuel IH]; intros loc count w Hw H0 H1 H2 H3.
  { assert (count = 0) by lia. subst count. cbn. exists []. split; [apply asks_none|]. split; [|apply bounded_0].
    split; [lia|]. split; [constructor|]. split; [intros i b []|]. split; lia. }
  cbn [halve]. destruct (Z.gtb_spec count 0) as [Hc|Hc].
  2:{ assert (count = 0) by lia. subst count. cbn. exists []. split; [apply asks_none|]. split; [|apply bounded_0].
      split; [lia|]. split; [constructor|]. split; [intros i b []|]. split; lia. }
  rewrite Z.quot_div_nonneg by lia. set (h := count / 2).
  assert (Hh : 0 <= h < count /\ 2 * h <= count /\ 2 * (count - (h + 1)) <= count) by (subst h; pose proof (Z.div_mod count 2); pose proof (Z.mod_pos_bound count 2); lia).
  destruct (load_next a w (loc + h) (fun v => bind (f v) (fun c : bool => if Bool.eqb c p then halve p f a fuel (loc + h + 1) (count - (h + 1)) else halve p f a fuel loc h)) Hw) as (x & Hx & E); [lia|].
  rewrite E. clear E. unfold bind at 1. pose proof (G x w) as Gx.
  destruct (f x w) as [[c| |] w1] eqn:F; cbn [fst snd] in Gx.
  2,3: exists [], (loc + h), w; split; [apply asks_none|]; split; [lia|]; split; [auto|]; split; [apply one_bounded; lia|]; exists x; now split.
  assert (Hw1 : wf_slice (fst w1) a) by (eapply shape_wf; eauto).
  destruct (Bool.eqb c p) eqn:B.
  - apply Bool.eqb_prop in B. subst c.
    specialize (IH (loc + h + 1) (count - (h + 1)) w1 Hw1 ltac:(lia) ltac:(lia) ltac:(lia) ltac:(lia)).
    destruct (halve p f a fuel (loc + h + 1) (count - (h + 1)) w1) as [[r| |] w'].
    + destruct IH as (l & A & (I1 & I2 & I3 & I4 & I5) & Bd). exists ((loc + h, p) :: l).
      split; [eapply asks_next; eauto|]. split; [|cbn [length]; eapply bounded_S; [| | |exact Bd]; lia].
      assert (Nin : ~ In (loc + h) (map fst l)).
      { intros N. apply in_map_iff in N. destruct N as ((i & b) & Ei & N). cbn in Ei. subst i. destruct (I3 _ _ N). lia. }
      split; [lia|]. split; [cbn; constructor; auto|]. split; [|split].
      * intros i b [Eq|N].
        -- injection Eq as <- <-. split; [lia|]. destruct (Z.ltb_spec (loc + h) r); [auto|lia].
        -- destruct (I3 _ _ N). split; [lia|auto].
      * intros _. destruct (Z.eq_dec r (loc + h + 1)) as [->|]; [left; f_equal; lia|right; apply I4; lia].
      * intros. right. apply I5. lia.
    + destruct IH as (l & i & w2 & A & Hi & Nin & Bd & Fl). exists ((loc + h, p) :: l), i, w2.
      split; [eapply asks_next; eauto|]. split; [lia|]. split; [cbn; intros [|]; [lia|auto]|].
      split; [cbn [length]; eapply bounded_S; [| | |exact Bd]; lia|exact Fl].
    + destruct IH as (l & i & w2 & A & Hi & Nin & Bd & Fl). exists ((loc + h, p) :: l), i, w2.
      split; [eapply asks_next; eauto|]. split; [lia|]. split; [cbn; intros [|]; [lia|auto]|].
      split; [cbn [length]; eapply bounded_S; [| | |exact Bd]; lia|exact Fl].
  - assert (c = negb p) by (destruct c, p; cbn in *; congruence). subst c.
    specialize (IH loc h w1 Hw1 ltac:(lia) ltac:(lia) ltac:(lia) ltac:(lia)).
    destruct (halve p f a fuel loc h w1) as [[r| |] w'].
    + destruct IH as (l & A & (I1 & I2 & I3 & I4 & I5) & Bd). exists ((loc + h, negb p) :: l).
      split; [eapply asks_next; eauto|]. split; [|cbn [length]; eapply bounded_S; [| | |exact Bd]; lia].
      assert (Nin : ~ In (loc + h) (map fst l)).
      { intros N. apply in_map_iff in N. destruct N as ((i & b) & Ei & N). cbn in Ei. subst i. destruct (I3 _ _ N). lia. }
      split; [lia|]. split; [cbn; constructor; auto|]. split; [|split].
      * intros i b [Eq|N].
        -- injection Eq as <- <-. split; [lia|]. destruct (Z.ltb_spec (loc + h) r); [lia|auto].
        -- destruct (I3 _ _ N). split; [lia|auto].
      * intros. right. apply I4. lia.
      * intros _. destruct (Z.eq_dec r (loc + h)) as [->|]; [left; auto|right; apply I5; lia].
    + destruct IH as (l & i & w2 & A & Hi & Nin & Bd & Fl). exists ((loc + h, negb p) :: l), i, w2.
      split; [eapply asks_next; eauto|]. split; [lia|]. split; [cbn; intros [|]; [lia|auto]|].
      split; [cbn [length]; eapply bounded_S; [| | |exact Bd]; lia|exact Fl].
    + destruct IH as (l & i & w2 & A & Hi & Nin & Bd & Fl). exists ((loc + h, negb p) :: l), i, w2.
      split; [eapply asks_next; eauto|]. split; [lia|]. split; [cbn; intros [|]; [lia|auto]|].
      split; [cbn [length]; eapply bounded_S; [| | |exact Bd]; lia|exact Fl].
Qed.

Lemma lower_halve less a v fuel : forall loc count w,
  LowerBoundFx_loop less a v fuel loc count w = halve true (fun x => less x v) a fuel loc count w.
Proof using Type.
  induction fuel as [|fuel IH]; intros loc count w; cbn [LowerBoundFx_loop halve]; destruct (count >? 0); try reflexivity.
  apply bind_ext_at. intros x w1. apply bind_ext_at. intros [] w2; cbn [Bool.eqb]; apply IH.
Qed.
Lemma upper_halve less a v fuel : forall loc count w,
  UpperBoundFx_loop less a v fuel loc count w = halve false (fun x => less v x) a fuel loc count w.
Proof using Type.
  induction fuel as [|fuel IH]; intros loc count w; cbn [UpperBoundFx_loop halve]; destruct (count >? 0); try reflexivity.
  apply bind_ext_at. intros x w1. apply bind_ext_at. intros [] w2; cbn [Bool.eqb negb]; apply IH.
Qed.

(** The whole search. *)
Lemma halve_0 p f a w : go_code f -> wf_slice (fst w) a ->
  match halve p f a (S (Z.to_nat (s_len a))) 0 (s_len a) w with
  | (Ok r, w') => exists l, asks f a w l w' /\ singles_out p (s_len a) r l /\ few (s_len a) (length l)
  | (Panic, w') => exists l i w1, asks f a w l w1 /\ ~ In i (map fst l) /\ few (s_len a) (S (length l)) /\ fails f a i w1 Panic w'
  | (NoFuel, w') => exists l i w1, asks f a w l w1 /\ ~ In i (map fst l) /\ few (s_len a) (S (length l)) /\ fails f a i w1 NoFuel w'
  end.
Proof using Type.
  intros G Hw. pose proof Hw as (_ & _ & H & _).
  pose proof (halve_ok p f a G (S (Z.to_nat (s_len a))) 0 (s_len a) w Hw ltac:(lia) ltac:(lia) ltac:(lia) ltac:(lia)) as S.
  destruct (halve p f a (Datatypes.S (Z.to_nat (s_len a))) 0 (s_len a) w) as [[r| |] w'].
  - destruct S as (l & A & Wi & B). exists l. split; [auto|]. split; [exact Wi|]. apply bounded_few; [lia|auto].
  - destruct S as (l & i & w1 & A & Hi & N & B & Fl). exists l, i, w1. split; [auto|]. split; [auto|]. split; [apply bounded_few; [lia|auto]|auto].
  - destruct S as (l & i & w1 & A & Hi & N & B & Fl). exists l, i, w1. split; [auto|]. split; [auto|]. split; [apply bounded_few; [lia|auto]|auto].
Qed.
Lemma asks_wf f a : go_code f -> forall w l w', asks f a w l w' -> wf_slice (fst w) a -> wf_slice (fst w') a.
Proof using Type.
  intros G w l w' A. induction A as [|w i x b w1 l w2 Hx F A IH]; [auto|]. intros Hw. apply IH.
  pose proof (G x w) as Gx. rewrite F in Gx. exact (shape_wf _ _ a Gx Hw).
Qed.
End LFx.
