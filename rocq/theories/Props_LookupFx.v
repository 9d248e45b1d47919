(** Property C102 (lookup.go, compute.go, binary_search.go): callbacks that
    panic, keep variables, or change the very slice that is looked through.
    [asks f a w l w'] (Spec_LookupFx.v): the calls of l, each on the element a[i]
    as it is when its turn comes, lead from the world w to w', and nothing else
    happens; so the functions themselves write nothing.  [go_code f] only says
    that f does not shrink or free arrays, which no Go code can do. *)
From Verif Require Import BaseLemmas Proof_Mem Spec_LookupFx Model_TransformFx Model_LookupFx Proof_LookupFx.

(** C102: FindIf asks about a[0], a[1], ... up to the first yes, once each. *)
Theorem C102_FindIf : forall T St (cond : T -> M (world_of T St) bool) a w, go_code cond -> wf_slice (fst w) a ->
  match FindIfFx a cond w with
  | (Ok (j, true), w') => 0 <= j < s_len a /\ asks cond a w (all_answered false j ++ [(j, true)]) w'
  | (Ok (j, false), w') => j = -1 /\ asks cond a w (all_answered false (s_len a)) w'
  | (Panic, w') => exists j w1, 0 <= j < s_len a /\ asks cond a w (all_answered false j) w1 /\ fails cond a j w1 Panic w'
  | (NoFuel, w') => exists j w1, 0 <= j < s_len a /\ asks cond a w (all_answered false j) w1 /\ fails cond a j w1 NoFuel w'
  end.
Proof.
  intros T St f a w G Hw. unfold FindIfFx. rewrite find_scan. pose proof (scan_0 true f a w G Hw) as S.
  unfold bind. destruct (scan true f a (Z.to_nat (s_len a)) 0 w) as [[[j|]| |] w']; cbn; auto.
Qed.
Print Assumptions C102_FindIf.

(** C102: AnyOf and NoneOf stop at the first yes, AllOf at the first no. *)
Theorem C102_AnyOf : forall T St (pred : T -> M (world_of T St) bool) a w, go_code pred -> wf_slice (fst w) a ->
  match AnyOfFx a pred w with
  | (Ok true, w') => exists j, 0 <= j < s_len a /\ asks pred a w (all_answered false j ++ [(j, true)]) w'
  | (Ok false, w') => asks pred a w (all_answered false (s_len a)) w'
  | (Panic, w') => exists j w1, 0 <= j < s_len a /\ asks pred a w (all_answered false j) w1 /\ fails pred a j w1 Panic w'
  | (NoFuel, w') => exists j w1, 0 <= j < s_len a /\ asks pred a w (all_answered false j) w1 /\ fails pred a j w1 NoFuel w'
  end.
Proof.
  intros T St f a w G Hw. unfold AnyOfFx. rewrite any_scan. pose proof (scan_0 true f a w G Hw) as S.
  unfold bind. destruct (scan true f a (Z.to_nat (s_len a)) 0 w) as [[[j|]| |] w']; cbn; eauto.
Qed.
Print Assumptions C102_AnyOf.

Theorem C102_NoneOf : forall T St (pred : T -> M (world_of T St) bool) a w, go_code pred -> wf_slice (fst w) a ->
  match NoneOfFx a pred w with
  | (Ok false, w') => exists j, 0 <= j < s_len a /\ asks pred a w (all_answered false j ++ [(j, true)]) w'
  | (Ok true, w') => asks pred a w (all_answered false (s_len a)) w'
  | (Panic, w') => exists j w1, 0 <= j < s_len a /\ asks pred a w (all_answered false j) w1 /\ fails pred a j w1 Panic w'
  | (NoFuel, w') => exists j w1, 0 <= j < s_len a /\ asks pred a w (all_answered false j) w1 /\ fails pred a j w1 NoFuel w'
  end.
Proof.
  intros T St f a w G Hw. unfold NoneOfFx. pose proof (C102_AnyOf T St f a w G Hw) as S.
  unfold bind. destruct (AnyOfFx a f w) as [[[]| |] w']; cbn; auto.
Qed.
Print Assumptions C102_NoneOf.

Theorem C102_AllOf : forall T St (pred : T -> M (world_of T St) bool) a w, go_code pred -> wf_slice (fst w) a ->
  match AllOfFx a pred w with
  | (Ok false, w') => exists j, 0 <= j < s_len a /\ asks pred a w (all_answered true j ++ [(j, false)]) w'
  | (Ok true, w') => asks pred a w (all_answered true (s_len a)) w'
  | (Panic, w') => exists j w1, 0 <= j < s_len a /\ asks pred a w (all_answered true j) w1 /\ fails pred a j w1 Panic w'
  | (NoFuel, w') => exists j w1, 0 <= j < s_len a /\ asks pred a w (all_answered true j) w1 /\ fails pred a j w1 NoFuel w'
  end.
Proof.
  intros T St f a w G Hw. unfold AllOfFx. rewrite all_scan. pose proof (scan_0 false f a w G Hw) as S.
  unfold bind. destruct (scan false f a (Z.to_nat (s_len a)) 0 w) as [[[j|]| |] w']; cbn; eauto.
Qed.
Print Assumptions C102_AllOf.

(** C102: CountIf asks about every element once and returns the number of yes
    answers. *)
Theorem C102_CountIf : forall T St (pred : T -> M (world_of T St) bool) a w, go_code pred -> wf_slice (fst w) a ->
  match CountIfFx a pred w with
  | (Ok c, w') => exists bs, zlen bs = s_len a /\ c = count_true bs /\ asks pred a w (numbered bs) w'
  | (Panic, w') => exists bs w1, zlen bs < s_len a /\ asks pred a w (numbered bs) w1 /\ fails pred a (zlen bs) w1 Panic w'
  | (NoFuel, w') => exists bs w1, zlen bs < s_len a /\ asks pred a w (numbered bs) w1 /\ fails pred a (zlen bs) w1 NoFuel w'
  end.
Proof.
  intros T St f a w G Hw. unfold CountIfFx. pose proof Hw as (_ & _ & H & _).
  pose proof (count_loop_ok f a G (Z.to_nat (s_len a)) 0 0 w Hw ltac:(lia) ltac:(lia)) as S.
  destruct (CountIfFx_loop f a (Z.to_nat (s_len a)) 0 0 w) as [[r| |] w'].
  - destruct S as (bs & L & R & A). exists bs. split; [unfold zlen; lia|]. split; [lia|exact A].
  - destruct S as (bs & w1 & L & A & Fl). exists bs, w1. split; [lia|]. split; [exact A|exact Fl].
  - destruct S as (bs & w1 & L & A & Fl). exists bs, w1. split; [lia|]. split; [exact A|exact Fl].
Qed.
Print Assumptions C102_CountIf.

(** C102: LowerBoundFunc with any less, one that contradicts itself or changes
    the slice included: it ends after at most log2(n)+1 calls less(a[i], value)
    with i in range, never two on the same i; the result is singled out by the
    answers it got. *)
Theorem C102_LowerBoundFunc : forall T St (less : T -> T -> M (world_of T St) bool) v a w,
  go_code (fun x => less x v) -> wf_slice (fst w) a ->
  let f := fun x => less x v in
  match LowerBoundFx a v less w with
  | (Ok r, w') => exists l, asks f a w l w' /\ singles_out true (s_len a) r l /\ few (s_len a) (length l)
  | (Panic, w') => exists l i w1, asks f a w l w1 /\ ~ In i (map fst l) /\ few (s_len a) (S (length l)) /\ fails f a i w1 Panic w'
  | (NoFuel, w') => exists l i w1, asks f a w l w1 /\ ~ In i (map fst l) /\ few (s_len a) (S (length l)) /\ fails f a i w1 NoFuel w'
  end.
Proof.
  intros T St less v a w G Hw f. unfold LowerBoundFx. rewrite lower_halve. exact (halve_0 true f a w G Hw).
Qed.
Print Assumptions C102_LowerBoundFunc.

(** C102: UpperBoundFunc the same with the calls less(value, a[i]); a no sends it
    to the right. *)
Theorem C102_UpperBoundFunc : forall T St (less : T -> T -> M (world_of T St) bool) v a w,
  go_code (less v) -> wf_slice (fst w) a ->
  let f := less v in
  match UpperBoundFx a v less w with
  | (Ok r, w') => exists l, asks f a w l w' /\ singles_out false (s_len a) r l /\ few (s_len a) (length l)
  | (Panic, w') => exists l i w1, asks f a w l w1 /\ ~ In i (map fst l) /\ few (s_len a) (S (length l)) /\ fails f a i w1 Panic w'
  | (NoFuel, w') => exists l i w1, asks f a w l w1 /\ ~ In i (map fst l) /\ few (s_len a) (S (length l)) /\ fails f a i w1 NoFuel w'
  end.
Proof.
  intros T St less v a w G Hw f. unfold UpperBoundFx. rewrite upper_halve. exact (halve_0 false (less v) a w G Hw).
Qed.
Print Assumptions C102_UpperBoundFunc.

(** C102: BinarySearchFunc is LowerBoundFunc and, if its result r is in range,
    one more call less(value, a[r]): found exactly if that says no. *)
Theorem C102_BinarySearchFunc : forall T St (less : T -> T -> M (world_of T St) bool) v a w,
  go_code (fun x => less x v) -> go_code (less v) -> wf_slice (fst w) a ->
  let f := fun x => less x v in
  let last := fun r w1 b w' => asks (less v) a w1 [(r, b)] w' in
  match BinarySearchFx a v less w with
  | (Ok (r, true), w') => exists l w1, asks f a w l w1 /\ singles_out true (s_len a) r l /\ few (s_len a) (length l) /\ r < s_len a /\ last r w1 false w'
  | (Ok (j, false), w') => j = -1 /\ exists l r w1, asks f a w l w1 /\ singles_out true (s_len a) r l /\ few (s_len a) (length l) /\
      (if r <? s_len a then last r w1 true w' else w' = w1)
  | (o, w') => exists l w1, asks f a w l w1 /\
      ((exists i, ~ In i (map fst l) /\ few (s_len a) (S (length l)) /\ fails f a i w1 (omap (fun _ => true) o) w') \/
       (exists r, singles_out true (s_len a) r l /\ few (s_len a) (length l) /\ fails (less v) a r w1 (omap (fun _ => true) o) w'))
  end.
Proof.
  intros T St less v a w G G2 Hw f last. unfold BinarySearchFx.
  pose proof (C102_LowerBoundFunc T St less v a w G Hw) as L. cbv zeta in L.
  unfold bind at 1. destruct (LowerBoundFx a v less w) as [[r| |] w1].
  2,3: destruct L as (l & i & w2 & A & N & Fw & Fl); exists l, w2; split; [exact A|]; left; exists i; auto.
  destruct L as (l & A & Si & Fw). destruct (Z.ltb_spec r (s_len a)) as [Hr|Hr].
  2:{ cbn. split; [auto|]. exists l, r, w1. split; [auto|]. split; [auto|]. split; [auto|].
      destruct (Z.ltb_spec r (s_len a)); [lia|auto]. }
  assert (Hw1 : wf_slice (fst w1) a) by exact (asks_wf f a G w l w1 A Hw).
  destruct (load_next a w1 r (fun x => bind (less v x) (fun c => if negb c then ret (r, true) else ret (-1, false))) Hw1) as (x & Hx & E).
  { destruct Si as (S1 & _). lia. }
  rewrite E. clear E. unfold bind at 1. destruct (less v x w1) as [[[]| |] w'] eqn:Fc.
  - cbn. split; [auto|]. exists l, r, w1. split; [auto|]. split; [auto|]. split; [auto|].
    destruct (Z.ltb_spec r (s_len a)); [|lia]. unfold last. eapply asks_next; eauto. apply asks_none.
  - cbn. exists l, w1. split; [auto|]. split; [auto|]. split; [auto|]. split; [auto|]. unfold last. eapply asks_next; eauto. apply asks_none.
  - exists l, w1. split; [auto|]. right. exists r. split; [auto|]. split; [auto|]. exists x. split; [exact Hx|exact Fc].
  - exists l, w1. split; [auto|]. right. exists r. split; [auto|]. split; [auto|]. exists x. split; [exact Hx|exact Fc].
Qed.
Print Assumptions C102_BinarySearchFunc.

(** A predicate that asks whether its argument is at least 10, adds its argument
    to every element of array 0, counts its calls and panics on the fourth. *)
Definition C102_pred : Z -> M (world_of Z Z) bool := fun x w =>
  let m' := map (map (fun y => y + x)) (fst w) in
  if snd w =? 3 then (Panic, w) else (Ok (10 <=? x), (m', snd w + 1)).
Definition C102_w (st : Z) : world_of Z Z := ([[1; 2; 3; 4; 5]], st).
Definition C102_a : slice := mkSlice 0 0 5 5.
Lemma C102_pred_go : go_code C102_pred.
Proof.
  intros x w. unfold C102_pred. destruct (snd w =? 3); cbn [fst snd]; intros b s Hs.
  - eauto.
  - exists (map (fun y => y + x) s). split; [|apply map_length]. now rewrite nth_error_map, Hs.
Qed.
(** Elements read 1, 3 (2+1), 7 (3+1+3), 15 (4+1+3+7): found at 3, although no
    element was 10 or more; with one call less to go it panics there. *)
Example C102_hyp : go_code C102_pred /\ wf_slice (fst (C102_w 0)) C102_a /\
  fst (FindIfFx C102_a C102_pred (C102_w (-1))) = Ok (3, true) /\
  fst (FindIfFx C102_a C102_pred (C102_w 0)) = Panic /\
  snd (snd (FindIfFx C102_a C102_pred (C102_w 0))) = 3 /\
  fst (CountIfFx C102_a C102_pred (C102_w (-10))) = Ok 2.
Proof.
  split; [exact C102_pred_go|]. split; [unfold wf_slice, zlen; cbn; lia|]. split; [reflexivity|]. split; [reflexivity|]. split; reflexivity.
Qed.
(** A less that answers yes, no, yes, no, ... whatever it is asked. *)
Definition C102_less : Z -> Z -> M (world_of Z Z) bool := fun _ _ w => (Ok (Z.even (snd w)), (fst w, snd w + 1)).
Example C102_hyp_less : go_code (fun x => C102_less x 7) /\ go_code (C102_less 7) /\
  fst (LowerBoundFx C102_a 7 C102_less (C102_w 0)) = Ok 4 /\ fst (UpperBoundFx C102_a 7 C102_less (C102_w 0)) = Ok 2 /\
  fst (BinarySearchFx C102_a 7 C102_less (C102_w 1)) = Ok (2, true).
Proof.
  split; [intros x w b s Hs; exists s; auto|]. split; [intros x w b s Hs; exists s; auto|].
  split; [reflexivity|]. split; reflexivity.
Qed.
