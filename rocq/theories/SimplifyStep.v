(** One step of simplify_obc, in either direction and with one or two sites *)
From Coq Require Import Reals Lra Bool List Arith ZArith Lia Ring.
From Verif Require Import Scalar ScalarFacts RScal Tensor TensorFacts Spec MpsModel MpsFacts StateFacts StateFacts2 MpoSpec CanonSpec CanonModel
  TruncFacts SplitFacts CanonFacts CanonSweep CanonNorm CanonProps CanonTwo SweepModel SweepSpec SweepFacts FormModel FormSpec LFormFacts LFormValue
  SimplifySpec SimplifyModel EckartYoung SimplifyFacts.
Import ListNotations.
Local Open Scope K_scope.

Lemma replace_split {A} k (T : A) (P : list A) : (k < length P)%nat -> replace_nth k T P = firstn k P ++ T :: skipn (S k) P.
Proof.
  revert k. induction P as [|x P IH]; intros k Hk; cbn in Hk; [lia|]. destruct k as [|k]; [reflexivity|].
  cbn [replace_nth firstn app]. f_equal. rewrite IH by lia. reflexivity.
Qed.

Lemma firstn_ext {A} (d : A) n (l l' : list A) : length l = length l' -> (forall j, (j < n)%nat -> nth j l d = nth j l' d) -> firstn n l = firstn n l'.
Proof.
  revert l l'. induction n as [|n IH]; intros l l' Hl H; [reflexivity|]. destruct l as [|x l], l' as [|x' l']; cbn in Hl; try lia; [reflexivity|].
  cbn. f_equal; [exact (H 0%nat ltac:(lia))|]. apply IH; [lia|]. intros j Hj. exact (H (S j) ltac:(lia)).
Qed.

Lemma skipn_ext {A} (d : A) n (l l' : list A) : length l = length l' -> (forall j, (n <= j)%nat -> nth j l d = nth j l' d) -> skipn n l = skipn n l'.
Proof.
  revert l l'. induction n as [|n IH]; intros l l' Hl H.
  - cbn. apply (nth_ext _ _ d d Hl). intros j _. apply H. lia.
  - destruct l as [|x l], l' as [|x' l']; cbn in Hl; try lia; [reflexivity|]. cbn. apply IH; [lia|]. intros j Hj. exact (H (S j) ltac:(lia)).
Qed.

Lemma firstn_S_site {RS : RScal} k (P : mps) : (k < length P)%nat -> firstn (S k) P = firstn k P ++ [site P k].
Proof.
  revert k. induction P as [|x P IH]; intros k Hk; cbn in Hk; [lia|]. destruct k as [|k]; [reflexivity|].
  change (firstn (S (S k)) (x :: P)) with (x :: firstn (S k) P). rewrite IH by lia. reflexivity.
Qed.

Lemma skipn_site {RS : RScal} k (P : mps) : (k < length P)%nat -> skipn k P = site P k :: skipn (S k) P.
Proof.
  revert k. induction P as [|x P IH]; intros k Hk; cbn in Hk; [lia|]. destruct k as [|k]; [reflexivity|].
  change (skipn (S k) (x :: P)) with (skipn k P). rewrite IH by lia. reflexivity.
Qed.

Section Step.
Context {RS : RScal}.
Add Ring Kring : k_ring.
Variable svd : tensor -> tensor * list R * tensor.
Variable flag : R.
Hypothesis Hsvd : svd_contract svd.
Variables (ws : list K) (bras : list mps) (ds : list nat).
Hypothesis Hg : good_bras ws bras ds.

(** The form is at site k of P. *)
Definition At (k : nat) (P : mps) (f : lform) : Prop :=
  open_mps P /\ pdims P = ds /\ (k < length P)%nat /\ lf_history ws bras ds f (firstn k P) (skipn (S k) P).

Definition iso (d : bool) (t : tensor) : Prop := if d then left_isometry t else right_isometry t.
Definition sgn (d : bool) : Z := if d then 1 else -1.
Definition moved (d : bool) (L k k' : nat) : Prop := if d then k' = S k /\ (k' < L)%nat else k = S k'.
Definition nz (e : R) (P : mps) : Prop := e <> 0%R \/ overlap ws bras P <> 0.
Notation D2 P := (dist2 ds (combo ws bras) (amp P)).

Lemma overlap_ext P P' : pdims P = ds -> pdims P' = ds -> (forall is, in_range ds is -> amp P' is = amp P is) ->
  overlap ws bras P' = overlap ws bras P /\ D2 P' = D2 P.
Proof.
  intros H1 H2 H. rewrite !(overlap_combo ws bras ds) by assumption. unfold dist2, weight, inner. split.
  - apply sumcfg_ext. intros is Hi. rewrite H by exact Hi. reflexivity.
  - f_equal. apply sumcfg_ext. intros is Hi. rewrite H by exact Hi. reflexivity.
Qed.

Lemma at_repr k P f : At k P f -> exists v, single_site_vector f = Ok v /\ wf v /\ dims v = dims (site P k) /\ repr1 ws bras k P v.
Proof.
  intros (Ho & Hd & Hk & Hh). pose proof Ho as (_ & HL). pose proof (history_linv ws bras ds Hg _ _ _ Hh) as (Hi & _).
  assert (HT : forall T, wf T -> dims T = dims (site P k) -> exists v, single_site_vector f = Ok v /\ wf v /\ dims v = dims T /\
     sumcfg (dims T) (fun x => get v x * get T x) = overlap ws bras (replace_nth k T P)).
  { intros T HwT HdT. destruct (fits_replace P k T HL Hk HwT HdT) as (H1 & H2). rewrite (replace_split k T P Hk) in *.
    apply (single_site_value ws bras ds Hg f _ _ T Hi H1). congruence. }
  destruct (site_dims P k Ho Hk) as (a & i & b & Hs & Hws & _).
  destruct (HT (site P k) Hws eq_refl) as (v & Ev & Hwv & Hdv & _). exists v. repeat split; auto.
  intros T HwT HdT. destruct (HT T HwT HdT) as (v' & Ev' & _ & _ & H). rewrite Ev in Ev'. apply Ok_inj' in Ev'. subst v'. exact H.
Qed.

Lemma dot_nonzero v T : dot v T <> 0 -> exists x, in_range (dims T) x /\ get v x <> 0.
Proof.
  unfold dot. intros H.
  assert (Hgen : forall ns (F G : list nat -> K), sumcfg ns (fun x => F x * G x) <> 0 -> exists x, in_range ns x /\ F x <> 0).
  { clear. induction ns as [|n ns IH]; intros F G H.
    - exists []. split; [constructor|]. cbn in H. intros E. apply H. rewrite E. ring.
    - cbn in H. assert (Hs : exists i, (i < n)%nat /\ sumcfg ns (fun x => F (i :: x) * G (i :: x)) <> 0).
      { clear IH. induction n as [|n IHn]; cbn in H; [congruence|].
        destruct (keqb_spec (sumcfg ns (fun x => F (n :: x) * G (n :: x))) 0) as [E|E].
        - rewrite E in H. destruct IHn as (i & Hi & Hn); [intros E2; apply H; rewrite E2; ring|]. exists i. split; [lia|exact Hn].
        - exists n. split; [lia|exact E]. }
      destruct Hs as (i & Hi & Hs). destruct (IH _ _ Hs) as (x & Hx & Hn). exists (i :: x). split; [|exact Hn].
      constructor; assumption. }
  apply (Hgen _ _ _ H).
Qed.

Lemma frob2_pos v a i b x : dims v = [a; i; b] -> wf v -> in_range [a; i; b] x -> get v x <> 0 -> frob2 v <> 0%R.
Proof.
  intros Hd Hw Hx Hn H. apply Hn. unfold get. apply frob2_zero. exact H.
Qed.

(** What a step from k to k' leaves behind. *)
Definition cstepped (d : bool) (k k' : nat) (P P' : mps) : Prop :=
  open_mps P' /\ pdims P' = ds /\ (k' < length P')%nat /\ length P' = length P /\ iso d (site P' k) /\
  (forall j, j <> k -> j <> k' -> site P' j = site P j) /\
  (forall j, j <> S (Nat.min k k') -> (dim (site P' j) 0 <= dim (site P j) 0)%nat).

Definition stepped (d : bool) (k k' : nat) (P P' : mps) (f' : lform) : Prop :=
  At k' P' f' /\ length P' = length P /\ iso d (site P' k) /\
  (forall j, j <> k -> j <> k' -> site P' j = site P j) /\
  (forall j, j <> S (Nat.min k k') -> (dim (site P' j) 0 <= dim (site P j) 0)%nat).

Lemma stepped_c d k k' P P' f' : stepped d k k' P P' f' -> cstepped d k k' P P'.
Proof. intros ((H1 & H2 & H3 & _) & H4 & H5 & H6 & H7). repeat (split; [assumption|]). exact H7. Qed.

(** the new tensor before it is split *)
Lemma center_ok k P v : open_mps P -> pdims P = ds -> (k < length P)%nat -> wf v -> dims v = dims (site P k) -> repr1 ws bras k P v ->
  let P1 := replace_nth k (tconj v) P in
  open_mps P1 /\ pdims P1 = ds /\ opt ws bras k P1 /\
  (overlap ws bras P <> 0 -> nonzero3 (tconj v) /\ overlap ws bras P1 <> 0) /\
  (canonical_at k P -> (D2 P1 <= D2 P)%R).
Proof.
  intros Ho Hd Hk Hwv Hdv Hr P1.
  destruct (open_replace P k (tconj v) Ho Hk (wf_tconj v Hwv) Hdv) as (O1 & D1). fold P1 in O1, D1.
  destruct (site_dims P k Ho Hk) as (a & i & b & Hs & Hws & Ha & Hi & Hb).
  split; [exact O1|]. split; [congruence|].
  assert (Hop : opt ws bras k P1) by (apply opt_replace; assumption). split; [exact Hop|]. split.
  - intros Hne. rewrite <- (replace_nth_site P k), <- (Hr (site P k) Hws eq_refl) in Hne.
    destruct (dot_nonzero _ _ Hne) as (x & Hx & Hn). rewrite Hs in Hx.
    assert (Hcx : kconj (get v x) <> 0).
    { intros E. apply Hn. rewrite <- (kconj_inv (get v x)), E. apply kconj_0. }
    split.
    + pose proof Hx as Hx'. apply in_range_cons_inv in Hx'. destruct Hx' as (x1 & l1 & E1 & H1 & Hr1).
      apply in_range_cons_inv in Hr1. destruct Hr1 as (x2 & l2 & E2 & H2 & Hr2).
      apply in_range_cons_inv in Hr2. destruct Hr2 as (x3 & l3 & E3 & H3 & Hr3). apply in_range_nil_inv in Hr3. subst l1 l2 l3 x.
      exists x1, x2, x3. unfold dim. change (dims (tconj v)) with (dims v). rewrite Hdv, Hs. cbn [nth]. rewrite get_tconj. auto.
    + rewrite (opt_overlap ws bras k P1 O1) by (unfold P1; try rewrite length_replace_nth; assumption). unfold P1. rewrite site_replace_eq by exact Hk.
      intros E. rewrite <- rinj_0 in E. apply rinj_inj in E. revert E.
      apply (frob2_pos (tconj v) a i b x); [change (dims (tconj v)) with (dims v); congruence|apply wf_tconj; exact Hwv|exact Hx|rewrite get_tconj; exact Hcx].
  - intros Hc. pose proof (opt_best ws bras ds Hg k P v (site P k) Ho Hd Hk Hc Hr Hwv Hdv Hws eq_refl) as Hbest.
    rewrite replace_nth_site in Hbest. fold P1 in Hbest. pose proof (rsumcfg_nonneg (dims (site P k)) (fun x => kmod2 (get (site P k) x - kconj (get v x))%K) (fun _ => kmod2_nonneg _)). lra.
Qed.

Lemma kk_true k : Nat.min k (S k) = k. Proof. lia. Qed.
Lemma kk_false k : Nat.min (S k) k = k. Proof. lia. Qed.

(** single-site update that moves the centre; [tr] is the argument truncate of set_canonical *)
Lemma single_core tr d k k' P v : open_mps P -> pdims P = ds -> (k < length P)%nat -> wf v -> dims v = dims (site P k) -> repr1 ws bras k P v ->
  moved d (length P) k k' -> nz (eff flag tr) P ->
  exists P', set_canonical svd flag P (Z.of_nat k) (tconj v) (sgn d) tr = Ok P' /\ cstepped d k k' P P' /\ nz (eff flag tr) P' /\
    (dim (site P' (S (Nat.min k k'))) 0 <= dim (site P (S (Nat.min k k'))) 0)%nat /\
    (exact flag tr -> canonical_at k P -> (D2 P' <= D2 P)%R) /\
    (exact flag tr -> overlap ws bras P <> 0 -> overlap ws bras P' <> 0).
Proof.
  intros Ho Hpd Hk Hwv Hdv Hr Hm Hn. destruct (center_ok k P v Ho Hpd Hk Hwv Hdv Hr) as (O1 & D1 & Hop & Hnz & Hmono).
  set (P1 := replace_nth k (tconj v) P) in *.
  assert (Hlen1 : length P1 = length P) by apply length_replace_nth.
  assert (Hdim1 : forall j, dim (site P1 j) 0 = dim (site P j) 0).
  { intros j. destruct (Nat.eq_dec j k) as [->|Hj]; [|unfold P1; rewrite site_replace_neq by exact Hj; reflexivity].
    unfold P1. rewrite site_replace_eq by exact Hk. unfold dim. change (dims (tconj v)) with (dims v). rewrite Hdv. reflexivity. }
  assert (Hn' : eff flag tr <> 0%R \/ nonzero3 (tconj v)) by (destruct Hn as [Hn|Hn]; [left; exact Hn|right; apply Hnz; exact Hn]).
  assert (Hfin : forall P' kk, step_ok flag 1 1 P1 P' kk tr ->
     nz (eff flag tr) P' /\ ((exact flag tr -> canonical_at k P -> (D2 P' <= D2 P)%R) /\ (exact flag tr -> overlap ws bras P <> 0 -> overlap ws bras P' <> 0)) /\ open_mps P' /\ pdims P' = ds /\ length P' = length P).
  { intros P' kk (S1 & S2 & S3 & S4 & S5).
    assert (Hl : length P' = length P) by (rewrite (same_length _ _ S2); exact Hlen1).
    assert (HO' : open_mps P') by (split; [intros ->; cbn in Hl; lia|exact S1]).
    assert (Hex : exact flag tr -> overlap ws bras P' = overlap ws bras P1 /\ D2 P' = D2 P1).
    { intros He. apply overlap_ext; [exact D1|congruence|]. intros is Hi. destruct O1 as (N1 & L1). destruct HO' as (N' & L').
      apply (same_chain_amp 1 P1 P' 1 1); auto. rewrite D1. exact Hi. }
    split; [|split; [|split; [exact HO'|split; [congruence|exact Hl]]]].
    - destruct (Req_EM_T (eff flag tr) 0) as [E|E]; [right|left; exact E]. destruct Hn as [Hn|Hn]; [congruence|].
      destruct (Hex (or_introl E)) as (-> & _). apply Hnz. exact Hn.
    - split; intros He Hc; destruct (Hex He) as (E1 & E2); rewrite ?E1, ?E2; [apply Hmono|apply Hnz]; exact Hc. }
  destruct d; cbn [moved sgn] in *.
  - destruct Hm as (-> & Hk').
    destruct (set_canonical_right_ok3 svd flag Hsvd 1 1 P k (tconj v) tr (proj2 O1) ltac:(lia) Hk' Hn') as (P' & E & HS & HI).
    destruct (Hfin P' k HS) as (F1 & F2 & F3 & F4 & F5). pose proof HS as (S1 & S2 & S3 & S4 & S5).
    exists P'. split; [exact E|]. rewrite kk_true. split; [|split; [exact F1|split; [rewrite <- Hdim1; apply S4|exact F2]]].
    split; [exact F3|]. split; [exact F4|]. split; [lia|]. split; [exact F5|split; [exact HI|split; [|intros j _; rewrite <- Hdim1; apply S4]]].
    intros j H1 H2. rewrite S3 by assumption. unfold P1. apply site_replace_neq. exact H1.
  - subst k.
    destruct (set_canonical_left_ok3 svd flag Hsvd 1 1 P k' (tconj v) tr (proj2 O1) ltac:(lia) Hk Hn') as (P' & E & HS & HI).
    destruct (Hfin P' k' HS) as (F1 & F2 & F3 & F4 & F5). pose proof HS as (S1 & S2 & S3 & S4 & S5).
    exists P'. split; [exact E|]. rewrite kk_false. split; [|split; [exact F1|split; [rewrite <- Hdim1; apply S4|exact F2]]].
    split; [exact F3|]. split; [exact F4|]. split; [lia|]. split; [exact F5|split; [exact HI|split; [|intros j _; rewrite <- Hdim1; apply S4]]].
    intros j H1 H2. rewrite S3 by assumption. unfold P1. apply site_replace_neq. exact H1.
Qed.

(** the form follows *)
Lemma at_moved d k k' P P' f : At k P f -> moved d (length P) k k' -> cstepped d k k' P P' -> stepped d k k' P P' (lf_propagate f (site P' k) (sgn d)).
Proof.
  intros (Ho & Hpd & Hk & Hh) Hm (F3 & F4 & Hk' & F5 & HI & Hoth & Hdim).
  split; [|repeat (split; [assumption|]); exact Hdim]. split; [exact F3|]. split; [exact F4|]. split; [exact Hk'|].
  destruct d; cbn [moved sgn] in *.
  - destruct Hm as (-> & _).
    rewrite (firstn_S_site k P') by lia.
    assert (E1 : firstn k P' = firstn k P) by (apply (firstn_ext empty); [lia|]; intros j Hj; apply Hoth; lia).
    assert (E2 : skipn (S (S k)) P' = skipn (S (S k)) P) by (apply (skipn_ext empty); [lia|]; intros j Hj; apply Hoth; lia).
    rewrite E1, E2. change (lf_propagate f (site P' k) 1) with (lf_propagate_right f (site P' k)).
    rewrite (skipn_site (S k) P) in Hh by lia.
    destruct (linked_split1 1 P' 1 k (proj2 F3) ltac:(lia)) as (m & dd & c & L1 & L2 & L3 & L4 & L5 & L6).
    apply (lfh_right ws bras ds f (firstn k P) (site P (S k)) (skipn (S (S k)) P) (site P' k) c Hh).
    + rewrite <- E1. apply linked_app. exists m. split; [exact L1|]. exists dd, c. repeat split; auto.
    + rewrite firstn_length, Nat.min_l by lia. rewrite <- F4.
      rewrite nth_pdims by lia. reflexivity.
  - subst k.
    rewrite (skipn_site (S k') P') by lia.
    assert (E1 : firstn k' P' = firstn k' P) by (apply (firstn_ext empty); [lia|]; intros j Hj; apply Hoth; lia).
    assert (E2 : skipn (S (S k')) P' = skipn (S (S k')) P) by (apply (skipn_ext empty); [lia|]; intros j Hj; apply Hoth; lia).
    rewrite E1, E2. change (lf_propagate f (site P' (S k')) (-1)) with (lf_propagate_left f (site P' (S k'))).
    rewrite (firstn_S_site k' P) in Hh by lia.
    destruct (linked_split1 1 P' 1 (S k') (proj2 F3) ltac:(lia)) as (m & dd & c & L1 & L2 & L3 & L4 & L5 & L6).
    apply (lfh_left ws bras ds f (firstn k' P) (site P k') (skipn (S (S k')) P) (site P' (S k')) m Hh).
    + apply (linked_pos 1 _ m L1). lia.
    + exists dd, c. repeat split; auto. rewrite <- E2. exact L2.
    + rewrite firstn_length, Nat.min_l by lia. rewrite <- F4.
      rewrite Nat.add_1_r, nth_pdims by lia. reflexivity.
Qed.

Lemma single_step_ok d k k' P f s : At k P f -> moved d (length P) k k' -> sk s = Z.of_nat k -> sdk s = sgn d -> nz flag P ->
  exists P' f', single_step svd flag s P f = Ok (P', f') /\ stepped d k k' P P' f' /\ nz flag P' /\
    (dim (site P' (S (Nat.min k k'))) 0 <= dim (site P (S (Nat.min k k'))) 0)%nat /\
    (exact_flag flag -> canonical_at k P -> (D2 P' <= D2 P)%R) /\
    (exact_flag flag -> overlap ws bras P <> 0 -> overlap ws bras P' <> 0).
Proof.
  intros HA Hm Hs Hd Hn. destruct (at_repr k P f HA) as (v & Ev & Hwv & Hdv & Hr). pose proof HA as (Ho & Hpd & Hk & Hh).
  destruct (single_core true d k k' P v Ho Hpd Hk Hwv Hdv Hr Hm Hn) as (P' & E & Hst & H).
  exists P', (lf_propagate f (site P' k) (sgn d)). split.
  - unfold single_step. rewrite Ev. cbn [bind]. unfold sweeper_site, sweeper_sense. rewrite Hs, Hd, E. cbn [bind].
    destruct Hst as (_ & _ & _ & Hl & _). rewrite site_at_nat by lia. reflexivity.
  - split; [apply at_moved; assumption|]. exact H.
Qed.

(** single-site update at the end of the chain *)
Lemma single_core_end tr (d : bool) k (P : mps) v : k = (if d then length P - 1 else 0)%nat -> (k < length P)%nat ->
  set_canonical svd flag P (Z.of_nat k) v (sgn d) tr = Ok (replace_nth k v P).
Proof.
  intros Hm Hk. unfold set_canonical. replace ((0 <=? Z.of_nat k)%Z && (Z.of_nat k <? Z.of_nat (length P))%Z) with true
    by (symmetry; apply andb_true_iff; split; [apply Z.leb_le|apply Z.ltb_lt]; lia).
  rewrite Nat2Z.id. destruct d; cbn [sgn Z.ltb Z.compare].
  - destruct (Nat.eqb_spec (k + 1) (length P)); [reflexivity|lia].
  - destruct (Nat.eqb_spec k 0); [reflexivity|lia].
Qed.

Lemma single_end_ok (d : bool) k P f s : At k P f -> k = (if d then length P - 1 else 0)%nat -> sk s = Z.of_nat k -> sdk s = sgn d -> nz flag P ->
  exists P' f', single_step svd flag s P f = Ok (P', f') /\ At k P' f' /\ length P' = length P /\
    (forall j, j <> k -> site P' j = site P j) /\ (forall j, dim (site P' j) 0 = dim (site P j) 0) /\ nz flag P' /\ opt ws bras k P' /\
    (canonical_at k P -> (D2 P' <= D2 P)%R) /\ (overlap ws bras P <> 0 -> overlap ws bras P' <> 0).
Proof.
  intros HA Hm Hs Hd Hn. destruct (at_repr k P f HA) as (v & Ev & Hwv & Hdv & Hr). destruct HA as (Ho & Hpd & Hk & Hh).
  destruct (center_ok k P v Ho Hpd Hk Hwv Hdv Hr) as (O1 & D1 & Hop & Hnz & Hmono).
  set (P1 := replace_nth k (tconj v) P) in *.
  assert (Hlen1 : length P1 = length P) by apply length_replace_nth.
  assert (Hdim1 : forall j, dim (site P1 j) 0 = dim (site P j) 0).
  { intros j. destruct (Nat.eq_dec j k) as [->|Hj]; [|unfold P1; rewrite site_replace_neq by exact Hj; reflexivity].
    unfold P1. rewrite site_replace_eq by exact Hk. unfold dim. change (dims (tconj v)) with (dims v). rewrite Hdv. reflexivity. }
  pose proof (single_core_end true d k P (tconj v) Hm Hk) as E. fold P1 in E.
  unfold single_step. rewrite Ev. cbn [bind]. unfold sweeper_site, sweeper_sense. rewrite Hs, Hd, E. cbn [bind].
  rewrite site_at_nat by lia. cbn [bind]. exists P1, (lf_propagate f (site P1 k) (sgn d)). split; [reflexivity|].
  assert (E1 : firstn k P1 = firstn k P) by (apply (firstn_ext empty); [lia|]; intros j Hj; apply (site_replace_neq k _ P); lia).
  assert (E2 : skipn (S k) P1 = skipn (S k) P) by (apply (skipn_ext empty); [lia|]; intros j Hj; apply (site_replace_neq k _ P); lia).
  split.
  { split; [exact O1|]. split; [exact D1|]. split; [lia|]. rewrite E1, E2. destruct d; cbn [sgn lf_propagate Z.ltb Z.compare].
    - rewrite (skipn_all2 P) in * by lia. change (lf_history ws bras ds (lf_propagate_right f (site P1 k)) (firstn k P) []). apply lfh_right_end. exact Hh.
    - subst k. change (lf_history ws bras ds (lf_propagate_left f (site P1 0)) [] (skipn 1 P)). apply lfh_left_end. exact Hh. }
  split; [exact Hlen1|]. split; [intros j Hj; apply site_replace_neq; exact Hj|]. split; [exact Hdim1|].
  split; [destruct Hn as [Hn|Hn]; [left; exact Hn|right; apply Hnz; exact Hn]|]. split; [exact Hop|split; [exact Hmono|intros H; apply Hnz; exact H]].
Qed.

End Step.
