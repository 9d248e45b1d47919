(** C138: longest increasing subsequences with LowerBoundFunc and UpperBoundFunc. *)
From Verif Require Import Base BaseLemmas Spec Model_BinarySearch Props_BinarySearch Spec_Lis Model_Lis Proof_Lis.

(** With LowerBoundFunc: each element greater than the one before. *)
Theorem C138_increasing : forall T (less : T -> T -> bool), strict_weak less -> forall vs,
  exists n, longest_increasing less vs = Ok n /\ longest (strictly_sorted_by less) vs n.
Proof.
  intros T less SW vs. apply (longest_ok less SW LowerBoundFunc less).
  - intros x v H. destruct (less v x) eqn:E; auto. pose proof (sw_trans _ SW _ _ _ H E). rewrite (sw_irrefl _ SW) in *. discriminate.
  - auto.
  - intros t x v H1 H2. destruct (less t v) eqn:E; auto. rewrite (sw_negtrans _ SW _ _ _ H1 E) in H2. discriminate.
  - intros a v S. now apply C41_LowerBoundFunc_sorted.
Qed.
Print Assumptions C138_increasing.

(** With UpperBoundFunc: no element less than the one before. *)
Theorem C138_sorted : forall T (less : T -> T -> bool), strict_weak less -> forall vs,
  exists n, longest_sorted less vs = Ok n /\ longest (sorted_by less) vs n.
Proof.
  intros T less SW vs. destruct (longest_ok less SW UpperBoundFunc (fun x v => negb (less v x))) with (vs := vs) as (n & E & (l & Sl & Pl & L) & M).
  - intros x v. now destruct (less v x).
  - intros x v H. destruct (less v x) eqn:F; [|discriminate H]. destruct (less x v) eqn:G; auto. pose proof (sw_trans _ SW _ _ _ F G). rewrite (sw_irrefl _ SW) in *. discriminate.
  - intros t x v H1 H2. destruct (less v x) eqn:F; [discriminate H2|]. now rewrite (sw_negtrans _ SW _ _ _ F H1).
  - intros a v S. destruct (C42_UpperBoundFunc_sorted T less a v SW S) as (r & E & Hr & H). exists r. split; [exact E|]. split; [exact Hr|]. intros i x G. rewrite (H i x G). now rewrite Z.leb_antisym, negb_involutive.
  - exists n. split; [exact E|]. split.
    + exists l. split; [exact Sl|]. split; [|exact L]. intros i j a b Hij Ga Gb. apply negb_true_iff. exact (Pl i j a b Hij Ga Gb).
    + intros l' Sl' Pl'. apply M; auto. intros i j a b Hij Ga Gb. apply negb_true_iff. exact (Pl' i j a b Hij Ga Gb).
Qed.
Print Assumptions C138_sorted.

(** Concrete cases: with repeated elements the two lengths differ. *)
Example C138_hyp : strict_weak Z.ltb.
Proof. apply Z_ltb_strict_weak. Qed.
Example C138_runs :
  map (longest_increasing Z.ltb) [[3; 1; 4; 1; 5; 9; 2; 6; 5; 3; 5]; [2; 2; 1; 2]; [3; 2; 1]; []] = [Ok 4; Ok 2; Ok 1; Ok 0] /\
  map (longest_sorted Z.ltb) [[3; 1; 4; 1; 5; 9; 2; 6; 5; 3; 5]; [2; 2; 1; 2]; [3; 2; 1]; []] = [Ok 5; Ok 3; Ok 1; Ok 0].
Proof. split; vm_compute; reflexivity. Qed.
