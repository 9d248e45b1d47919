(** Property C96 (transform.go, generate.go, vector.go): callbacks that panic.
    [calls f l st] (Spec_TransformFx.v) is what becomes of calling f on the
    elements of l one after the other until one call panics: the results so far,
    whether it panicked, and the state of f's own variables. *)
From Verif Require Import BaseLemmas Spec Spec_Vector Spec_TransformFx Proof_Mem Model_Transform Proof_Transform Proof_TransformMem
  Model_Vector Proof_Vector Model_TransformFx Proof_TransformFx.

(** C96: Transform, ReplaceIf and Generate: the elements whose call returned are
    done, the element of the panicking call and all behind it are as they were,
    and nothing outside the slice is written. *)
Theorem C96_Transform : forall T St (op : T -> M St T) m a st, wf_slice m a ->
  let c := calls op (contents m a) st in
  exists m', on_slice_fx a (TransformFx op) (m, st) = (ended c, (m', left_in c)) /\ wf_slice m' a /\
    contents m' a = results c ++ untouched (contents m a) (results c) /\
    same_except m m' (s_arr a) (s_off a) (s_off a + s_len a).
Proof.
  intros T St op m a st Hwf c. destruct (on_slice_fx_ok (TransformFx op) m a st (ended c) (results c ++ untouched (contents m a) (results c)) (left_in c) Hwf) as (m' & E & _ & H); eauto.
  - unfold TransformFx. rewrite (bind_own wlen _ (contents m a) st _ _ eq_refl), zlen_to_nat.
    apply (transform_loop op (contents m a) [] st).
  - apply compact_len, calls_length.
Qed.
Print Assumptions C96_Transform.

Theorem C96_Generate : forall T St (gen : M St T) m a st, wf_slice m a ->
  let c := calls (fun _ => gen) (contents m a) st in
  exists m', on_slice_fx a (GenerateFx gen) (m, st) = (ended c, (m', left_in c)) /\ wf_slice m' a /\
    contents m' a = results c ++ untouched (contents m a) (results c) /\
    same_except m m' (s_arr a) (s_off a) (s_off a + s_len a).
Proof.
  intros T St gen m a st Hwf c. destruct (on_slice_fx_ok (GenerateFx gen) m a st (ended c) (results c ++ untouched (contents m a) (results c)) (left_in c) Hwf) as (m' & E & _ & H); eauto.
  - unfold GenerateFx. rewrite (bind_own wlen _ (contents m a) st _ _ eq_refl), zlen_to_nat.
    apply (generate_loop gen (contents m a) [] st).
  - apply compact_len, calls_length.
Qed.
Print Assumptions C96_Generate.

Theorem C96_ReplaceIf : forall T St (pred : T -> M St bool) new m a st, wf_slice m a ->
  let c := calls pred (contents m a) st in
  exists m', on_slice_fx a (ReplaceIfFx pred new) (m, st) = (ended c, (m', left_in c)) /\ wf_slice m' a /\
    contents m' a = replaced new (contents m a) (results c) /\
    same_except m m' (s_arr a) (s_off a) (s_off a + s_len a).
Proof.
  intros T St pred new m a st Hwf c. destruct (on_slice_fx_ok (ReplaceIfFx pred new) m a st (ended c) (replaced new (contents m a) (results c)) (left_in c) Hwf) as (m' & E & _ & H); eauto.
  - unfold ReplaceIfFx. rewrite (bind_own wlen _ (contents m a) st _ _ eq_refl), zlen_to_nat.
    apply (replace_loop pred new (contents m a) [] st).
  - apply replaced_length.
Qed.
Print Assumptions C96_ReplaceIf.

(** C96: the copying variants: no memory that existed before is written,
    whether they return or panic. *)
Theorem C96_TransformCopy : forall T R St (zeroR : R) (op : T -> M St R) (a : list T) (m : mem R) st,
  let c := calls op a st in
  exists r m', TransformCopyFx zeroR a op (m, st) = (giving (ended c) r, (m', left_in c)) /\
    wf_slice m' r /\ (length m <= s_arr r)%nat /\ extends m m' /\ (ended c = Ok tt -> contents m' r = results c).
Proof.
  intros T R St zeroR op a m st c. unfold TransformCopyFx. pose proof (zlen_nonneg a).
  destruct (fresh_make zeroR m (zlen a) (zlen a)) as (r & m1 & E & (F1 & F2 & F3) & C & L & Cp & Ar); [lia|].
  rewrite (bind_own _ _ _ _ _ _ E).
  assert (Lr : length (contents m1 r) = length a) by (rewrite C, repeat_length; unfold zlen; lia).
  destruct (on_slice_fx_ok (TransformCopyFx_loop op a 0) m1 r st (ended c) (results c ++ skipn (length (results c)) (contents m1 r)) (left_in c) F2) as (m' & E' & Em & W & Cm & Sm).
  - apply (copy_loop op a [] (contents m1 r) st Lr).
  - apply compact_len. rewrite Lr. apply calls_length.
  - exists r, m'. split; [|split; [auto|]].
    + unfold bind. rewrite E'. unfold giving. destruct (ended c) as [[]| |]; reflexivity.
    + split; [lia|]. split.
      * subst m'. apply extends_write; auto. lia.
      * intros Ok. rewrite Cm. unfold c. rewrite (calls_all op a st Ok). rewrite skipn_all2 by lia. apply app_nil_r.
Qed.
Print Assumptions C96_TransformCopy.

Theorem C96_RemoveIfCopy : forall T (zero : T) grow St (cond : T -> M St bool) m a st, wf_slice m a ->
  let c := calls cond (contents m a) st in
  exists r m', RemoveIfCopyFx zero grow a cond (m, st) = (giving (ended c) r, (m', left_in c)) /\
    wf_slice m' r /\ fresh_storage m r /\ extends m m' /\ contents m' r = answered false (contents m a) (results c).
Proof.
  intros T zero grow St cond m a st Hwf c. unfold RemoveIfCopyFx. pose proof Hwf as (H1 & H2 & H3 & H4).
  destruct (fresh_make zero m 0 (s_len a)) as (r0 & m0 & E & F & C & _); [lia|].
  rewrite (bind_own _ _ _ _ _ _ E). rewrite (len_contents m a Hwf).
  destruct (remove_copy_loop zero grow cond m a Hwf (contents m a) [] m0 r0 st eq_refl F) as (r & m' & E' & (F1 & F2 & F3) & G).
  exists r, m'. split; [exact E'|]. split; [auto|]. split; [auto|]. split; [auto|]. rewrite G, C. reflexivity.
Qed.
Print Assumptions C96_RemoveIfCopy.

(** C96: TransformTo into b, when it cannot overwrite elements still to be read
    (as in C59): with k results so far, they are in the first k slots of b if its
    capacity is at least k, otherwise in fresh storage; of the memory that
    existed, only min(k, cap(b)) slots of b are written. *)
Theorem C96_TransformTo : forall T (zero : T) grow St (op : T -> M St T) m a b st,
  wf_slice m a -> wf_slice m b ->
  s_arr a <> s_arr b \/ s_off b <= s_off a \/ s_off a + s_len a <= s_off b ->
  let c := calls op (contents m a) st in
  let k := zlen (results c) in
  exists b' m', TransformToFx zero grow a op b (m, st) = (giving (ended c) b', (m', left_in c)) /\
    wf_slice m' b' /\ contents m' b' = results c /\
    old_same_except m m' (s_arr b) (s_off b) (s_off b + Z.min k (s_cap b)) /\
    (if k <=? s_cap b then s_arr b' = s_arr b /\ s_off b' = s_off b /\ s_cap b' = s_cap b
     else (length m <= s_arr b')%nat).
Proof.
  intros T zero grow St op m a b st Ha Hb Hnc c k. pose proof Hb as (H1 & H2 & H3 & H4). unfold TransformToFx.
  unfold bind. unfold lift_o at 1. rewrite reslice_prefix by lia.
  set (t := mkSlice (s_arr b) (s_off b) 0 (s_cap b)).
  assert (Ht : wf_slice m t) by (apply wf_prefix; auto; lia).
  rewrite (len_contents m a Ha).
  destruct (transform_to_loop zero grow op m a b Ha Hb Hnc (contents m a) [] m t st) as (b' & m' & E & W & C & O & F); auto.
  - apply ose_refl.
  - change (zlen (@nil T)) with 0. destruct (Z.leb_spec 0 (s_cap b)); [auto|lia].
  - exists b', m'. split; [exact E|]. split; [auto|]. split; [rewrite C; now rewrite (contents_empty _ _ Ht)|]. auto.
Qed.
Print Assumptions C96_TransformTo.

(** C96: RemoveIf.  With n elements kept by the calls that returned, the slice
    holds these and then, from position n on, what it held before; on return the
    result is the first n.  Only the n slots are written. *)
Theorem C96_RemoveIf : forall T St (cond : T -> M St bool) m a st, wf_slice m a ->
  let c := calls cond (contents m a) st in
  let k := answered false (contents m a) (results c) in
  exists m' r, RemoveIfFx a cond (m, st) = (giving (ended c) r, (m', left_in c)) /\
    r = mkSlice (s_arr a) (s_off a) (zlen k) (s_cap a) /\
    wf_slice m' a /\ wf_slice m' r /\ contents m' r = k /\ contents m' a = k ++ skipn (length k) (contents m a) /\
    same_except m m' (s_arr a) (s_off a) (s_off a + zlen k).
Proof. exact @remove_ok. Qed.
Print Assumptions C96_RemoveIf.

(** C96: Vector.RemoveIf after a panic: the same storage and length; the elements
    from the panicking call's on are as they were; before them stand the kept
    elements and then old elements. *)
Theorem C96_vector : forall T (zero : T) St (cond : T -> M St bool) m h st, wf_slice m h ->
  let c := calls cond (contents m h) st in
  let k := answered false (contents m h) (results c) in
  exists m' h', Vector_RemoveIfFx zero cond ((m, h), st) = (ended c, ((m', h'), left_in c)) /\
    match ended c with
    | Ok _ => Spec_Vector.shrunk zero m m' h h' k
    | _ => h' = h /\ wf_slice m' h /\ contents m' h = k ++ skipn (length k) (contents m h) /\
           same_except m m' (s_arr h) (s_off h) (s_off h + zlen k)
    end.
Proof.
  intros T zero St cond m s st Hs c k. pose proof Hs as (S1 & S2 & S3 & S4). unfold Vector_RemoveIfFx.
  rewrite (bind_own get_hdr _ (m, s) st s (m, s) eq_refl).
  destruct (remove_ok cond m s st Hs) as (m1 & r & E & Er & W & Wr & Cr & Ca & F). fold c k in E, Er, Cr, Ca, F.
  unfold bind at 1. cbn [fst snd]. rewrite E. destruct (ended c) as [[]| |] eqn:Ec; cbn [giving].
  - rewrite (bind_own (set_hdr r) _ (m1, s) (left_in c) tt (m1, r) eq_refl). unfold reslice_from.
    pose proof (answered_length false (contents m s) (results c)) as Hk. fold k in Hk. pose proof (zlen_contents m s Hs) as Z1.
    assert (Lr : s_len r = zlen k) by now subst r.
    assert (Ln : 0 <= s_len r <= s_len s) by (unfold zlen in *; lia).
    unfold bind. unfold lift_o at 1. rewrite (reslice_ok s (s_len r) (s_len s) ltac:(lia) ltac:(lia)).
    rewrite Er in Wr, Cr.
    destruct (finish_shrink zero m m1 s (zlen k) k Hs ltac:(lia) Wr Cr) as (m' & E' & Sh).
    { eapply same_except_weaken; [exact F|lia|lia]. }
    exists m', r. split; [|rewrite Er; exact Sh].
    unfold own, lift_mem. cbn [fst snd]. rewrite Lr. rewrite E'. reflexivity.
  - exists m1, s. auto 7.
  - exists m1, s. auto 7.
Qed.
Print Assumptions C96_vector.

(** C96, expected: a RemoveIf that panics loses no element.  False. *)
Definition C96_expected : Prop :=
  forall T St (zero : T) (cond : T -> M St bool) m h st m' h' st', wf_slice m h ->
    Vector_RemoveIfFx zero cond ((m, h), st) = (Panic, ((m', h'), st')) ->
    Permutation (contents m' h') (contents m h).
Theorem C96_refuted : ~ C96_expected.
Proof.
  intros H.
  specialize (H Z unit 0 (fun x st => (if x =? 3 then Panic else Ok (x =? 1), st)) [[1; 2; 3]] (mkSlice 0 0 3 3) tt
    [[2; 2; 3]] (mkSlice 0 0 3 3) tt).
  assert (P : Permutation [2; 2; 3] [1; 2; 3]).
  { apply H; [unfold wf_slice, zlen; simpl; lia|reflexivity]. }
  assert (I : In 1 [2; 2; 3]) by (eapply Permutation_in; [symmetry; exact P|simpl; auto]).
  simpl in I. lia.
Qed.
Print Assumptions C96_refuted.

(** C96, what holds: no element appears that was not there; none of the elements
    that the calls kept is lost, nor any from the panicking call's on. *)
Theorem C96_what_is_left : forall T St (zero : T) (cond : T -> M St bool) m h st m' h' st', wf_slice m h ->
  Vector_RemoveIfFx zero cond ((m, h), st) = (Panic, ((m', h'), st')) ->
  let c := calls cond (contents m h) st in
  s_len h' = s_len h /\ (forall x, In x (contents m' h') -> In x (contents m h)) /\
  (forall x, In x (answered false (contents m h) (results c)) -> In x (contents m' h')) /\
  untouched (contents m' h') (results c) = untouched (contents m h) (results c).
Proof.
  intros T St zero cond m h st m' h' st' Hs E c.
  destruct (C96_vector T zero St cond m h st Hs) as (m1 & h1 & E1 & R). fold c in E1, R. rewrite E in E1. injection E1 as Ec -> -> _.
  rewrite <- Ec in R. destruct R as (-> & W & C & _). set (k := answered false (contents m h) (results c)) in *.
  split; [reflexivity|]. split; [|split].
  - intros x Hx. rewrite C in Hx. apply in_app_or in Hx. destruct Hx as [Hx|Hx].
    + exact (answered_In _ _ _ _ Hx).
    + rewrite <- (firstn_skipn (length k) (contents m h)). apply in_or_app. auto.
  - intros x Hx. rewrite C. apply in_or_app. auto.
  - rewrite C. unfold untouched. pose proof (answered_length_rs false (contents m h) (results c)) as L. fold k in L.
    rewrite skipn_app. rewrite skipn_all2 by lia. cbn [app].
    rewrite <- (firstn_skipn (length k) (contents m h)) at 2. rewrite (skipn_app _ (firstn (length k) (contents m h))).
    pose proof (answered_length false (contents m h) (results c)) as L2. fold k in L2.
    rewrite (skipn_all2 (firstn _ _)) by (rewrite firstn_length; lia). cbn [app]. now rewrite firstn_length, Nat.min_l by lia.
Qed.
Print Assumptions C96_what_is_left.

(** Concrete case: a predicate that counts its calls and panics on 3. *)
Example C96_hyp :
  let cond := fun x n => if x =? 3 then (Panic, n) else (Ok (x =? 1), n + 1) in
  wf_slice [[1; 2; 1; 3; 4]] (mkSlice 0 0 5 5) /\
  calls cond [1; 2; 1; 3; 4] 0 = Calls [true; false; true] Panic 3 /\
  Vector_RemoveIfFx 0 cond (([[1; 2; 1; 3; 4]], mkSlice 0 0 5 5), 0) =
    (Panic, (([[2; 2; 1; 3; 4]], mkSlice 0 0 5 5), 3)) /\
  on_slice_fx (mkSlice 0 1 3 4) (TransformFx (fun x n => if x =? 3 then (Panic, n) else (Ok (10 * x), n + 1))) ([[1; 2; 1; 3; 4]], 0) =
    (Panic, ([[1; 20; 10; 3; 4]], 2)).
Proof. split; [unfold wf_slice, zlen; simpl; lia|]. repeat split. Qed.
