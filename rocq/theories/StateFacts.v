(** Constructors, product/GHZ/cluster states, local operators, density matrices. *)
From Coq Require Import Bool List Arith ZArith Lia Ring.
From Verif Require Import Scalar ScalarFacts Tensor TensorFacts Spec MpsModel MpsFacts EnvFacts ExpectedFacts.
Import ListNotations.
Local Open Scope K_scope.

Section Facts.
Context {SC : Scalar}.
Add Ring Kring : k_ring.

(** ** Constructors *)
Definition left_of (periodic : bool) (bond i : nat) : nat :=
  if periodic || Nat.ltb 0 i then bond else 1%nat.
Definition right_of (periodic : bool) (bond l i : nat) : nat :=
  if periodic || Nat.ltb i (l - 1) then bond else 1%nat.

Lemma presize_ok physical bond periodic : (0 < bond)%nat -> Forall (fun d => 0 < d)%nat physical ->
  presize_mps physical bond periodic =
  Ok (map (fun i => zeros [left_of periodic bond i; nth i physical 0%nat; right_of periodic bond (length physical) i])
       (seq 0 (length physical))).
Proof.
  intros Hb Hp. unfold presize_mps. destruct (Nat.ltb_spec 0 bond); [|lia].
  assert (H1 : forallb (Nat.ltb 0) physical = true).
  { apply forallb_forall. intros d Hd. rewrite Forall_forall in Hp. apply Nat.ltb_lt. auto. }
  rewrite H1. reflexivity.
Qed.

Lemma linked_map_seq (f : nat -> tensor) (lb : nat -> nat) s n :
  (forall i, (s <= i < s + n)%nat -> exists d, dims (f i) = [lb i; d; lb (S i)] /\ wf (f i) /\
      (0 < d)%nat /\ (0 < lb (S i))%nat) ->
  linked (lb s) (map f (seq s n)) (lb (s + n)%nat).
Proof.
  revert s. induction n as [|n IH]; intros s H; cbn [seq map linked].
  - rewrite Nat.add_0_r. reflexivity.
  - destruct (H s ltac:(lia)) as (d & H1 & H2 & H3 & H4). exists d, (lb (S s)).
    repeat split; auto. replace (s + S n)%nat with (S s + n)%nat by lia.
    apply IH. intros i Hi. apply H. lia.
Qed.

Lemma left_right_match periodic bond l i : (i < l - 1)%nat ->
  right_of periodic bond l i = left_of periodic bond (S i).
Proof.
  intros H. unfold left_of, right_of. destruct periodic; [reflexivity|]. cbn [orb].
  destruct (Nat.ltb_spec i (l - 1)); [|lia]. reflexivity.
Qed.

Definition outer (periodic : bool) (bond : nat) : nat := if periodic then bond else 1%nat.

Lemma presize_linked (g : nat -> tensor) physical bond periodic :
  (0 < bond)%nat -> Forall (fun d => 0 < d)%nat physical -> (0 < length physical)%nat ->
  (forall i, (i < length physical)%nat ->
     dims (g i) = [left_of periodic bond i; nth i physical 0%nat; right_of periodic bond (length physical) i] /\ wf (g i)) ->
  linked (outer periodic bond) (map g (seq 0 (length physical))) (outer periodic bond).
Proof.
  intros Hb Hp Hl Hg. set (l := length physical) in *.
  set (lb := fun i => if Nat.eqb i l then outer periodic bond else left_of periodic bond i).
  assert (H0 : lb 0%nat = outer periodic bond).
  { unfold lb. destruct (Nat.eqb_spec 0 l); [reflexivity|]. unfold left_of, outer. destruct periodic; reflexivity. }
  assert (Hend : lb (0 + l)%nat = outer periodic bond).
  { unfold lb. cbn. rewrite Nat.eqb_refl. reflexivity. }
  rewrite <- H0 at 1. rewrite <- Hend. apply linked_map_seq.
  intros i Hi. cbn in Hi. destruct (Hg i ltac:(lia)) as (Hd & Hw).
  exists (nth i physical 0%nat). rewrite Hd. unfold lb.
  destruct (Nat.eqb_spec i l); [lia|].
  assert (Hr : right_of periodic bond l i = (if Nat.eqb (S i) l then outer periodic bond else left_of periodic bond (S i))).
  { destruct (Nat.eqb_spec (S i) l).
    - unfold right_of, outer. destruct periodic; [reflexivity|]. cbn [orb].
      destruct (Nat.ltb_spec i (l - 1)); [lia|reflexivity].
    - apply left_right_match. lia. }
  rewrite Hr. repeat split; auto.
  - rewrite Forall_forall in Hp. apply Hp. apply nth_In. unfold l in *; lia.
  - destruct (Nat.eqb (S i) l); unfold outer, left_of; destruct periodic; cbn; try lia.
Qed.

Lemma nth_site_map (f : nat -> tensor) n k : (k < n)%nat -> site (map f (seq 0 n)) k = f k.
Proof. intros H. unfold site. apply nth_map_seq. exact H. Qed.

Lemma presize_correct physical bond periodic :
  physical <> [] -> (0 < bond)%nat -> Forall (fun d => 0 < d)%nat physical ->
  exists psi, presize_mps physical bond periodic = Ok psi /\ wf_mps psi /\
    pdims psi = physical /\ left_bond psi = outer periodic bond /\
    (forall k, (k < length psi)%nat -> dim (site psi k) 0 <= bond /\ dim (site psi k) 2 <= bond)%nat /\
    (forall k, (0 < k < length psi)%nat -> dim (site psi k) 0 = bond) /\
    (forall k is, get (site psi k) is = 0).
Proof.
  intros Hne Hb Hp.
  assert (Hl : (0 < length physical)%nat) by (destruct physical; [congruence|cbn; lia]).
  rewrite presize_ok by assumption. eexists. split; [reflexivity|].
  set (g := fun i => zeros [left_of periodic bond i; nth i physical 0%nat; right_of periodic bond (length physical) i]).
  assert (Hlink : linked (outer periodic bond) (map g (seq 0 (length physical))) (outer periodic bond)).
  { apply presize_linked; auto. intros i Hi. split; [reflexivity|apply wf_mk]. }
  assert (Hnn : map g (seq 0 (length physical)) <> []).
  { intros E. apply (f_equal (@length _)) in E. rewrite map_length, seq_length in E. cbn in E. lia. }
  split; [|split; [|split; [|split; [|split]]]].
  - split; [exact Hnn|]. exists (outer periodic bond). split; [destruct periodic; cbn; lia|exact Hlink].
  - unfold pdims. rewrite map_map. unfold g, dim. cbn [dims zeros mk nth].
    apply (nth_ext _ _ 0%nat 0%nat); [rewrite map_length, seq_length; reflexivity|].
    intros n Hn. rewrite map_length, seq_length in Hn. rewrite nth_map_seq by assumption. reflexivity.
  - apply (linked_left_bond _ _ _ Hnn Hlink).
  - intros k Hk. rewrite map_length, seq_length in Hk. rewrite nth_site_map by assumption.
    unfold g, dim. cbn [dims zeros mk nth]. unfold left_of, right_of. split.
    + destruct (periodic || Nat.ltb 0 k); lia.
    + destruct (periodic || Nat.ltb k (length physical - 1)); lia.
  - intros k Hk. rewrite map_length, seq_length in Hk. rewrite nth_site_map by lia.
    unfold g, dim. cbn [dims zeros mk nth]. unfold left_of.
    destruct (Nat.ltb_spec 0 k); [|lia]. rewrite orb_true_r. reflexivity.
  - intros k is. unfold site.
    destruct (Nat.lt_ge_cases k (length physical)) as [Hk|Hk].
    + rewrite nth_map_seq by assumption. unfold g, get, zeros, mk. cbn [dims data].
      generalize (offset [left_of periodic bond k; nth k physical 0%nat; right_of periodic bond (length physical) k] is).
      intros n. destruct (Nat.lt_ge_cases n (nprod [left_of periodic bond k; nth k physical 0%nat; right_of periodic bond (length physical) k])) as [H|H].
      * rewrite nth_map_seq by assumption. reflexivity.
      * apply nth_overflow. rewrite map_length, seq_length. exact H.
    + rewrite nth_overflow by (rewrite map_length, seq_length; exact Hk).
      unfold get. cbn. destruct is; reflexivity.
Qed.

Lemma randomize_dims rnd psi : map dims (randomize rnd psi) = map dims psi /\
  (Forall wf psi -> Forall wf (randomize rnd psi)).
Proof.
  unfold randomize. set (F := fun p : nat * tensor => _).
  assert (HF : forall p, dims (F p) = dims (snd p) /\ (wf (snd p) -> wf (F p))).
  { intros p. split; [reflexivity|]. unfold wf, F. cbn. rewrite map_length, seq_length. auto. }
  clearbody F. generalize 0%nat as s.
  induction psi as [|A psi IH]; intros s; cbn; [split; constructor|].
  destruct (IH (S s)) as (H1 & H2). split.
  - f_equal; [apply HF|exact H1].
  - intros H. inversion H; subst. constructor; [|apply H2; assumption].
    apply HF. assumption.
Qed.

Lemma linked_dims_ext l psi phi r : map dims phi = map dims psi -> Forall wf phi ->
  linked l psi r -> linked l phi r.
Proof.
  revert l phi. induction psi as [|A psi IH]; intros l [|B phi] Hd Hw H; cbn in Hd; try discriminate.
  - exact H.
  - injection Hd as Hd1 Hd. destruct H as (d & c & H1 & H2 & H3 & H4 & H5).
    inversion Hw; subst. cbn. exists d, c. rewrite Hd1. repeat (split; auto).
Qed.

Lemma linked_wf l psi r : linked l psi r -> Forall wf psi.
Proof.
  revert l. induction psi as [|A psi IH]; intros l H; constructor.
  - destruct H as (d & c & H1 & H2 & _). exact H2.
  - destruct H as (d & c & H1 & H2 & H3 & H4 & H5). eauto.
Qed.

Lemma wf_mps_randomize rnd psi : wf_mps psi ->
  wf_mps (randomize rnd psi) /\ pdims (randomize rnd psi) = pdims psi /\
  left_bond (randomize rnd psi) = left_bond psi.
Proof.
  intros (Hne & D & HD & HL). destruct (randomize_dims rnd psi) as (H1 & H2).
  assert (Hp : pdims (randomize rnd psi) = pdims psi).
  { unfold pdims, dim. rewrite <- !(map_map dims (fun ds => nth 1 ds 0%nat)), H1. reflexivity. }
  split; [|split; [exact Hp|]].
  - split.
    + intros E. apply (f_equal (@length _)) in H1. rewrite E, !map_length in H1. destruct psi; [congruence|discriminate].
    + exists D. split; [exact HD|]. eapply linked_dims_ext; eauto. apply H2. eapply linked_wf; eauto.
  - destruct psi as [|A psi]; [congruence|].
    destruct (randomize rnd (A :: psi)) as [|B phi]; [discriminate|].
    cbn in H1. injection H1 as H1 _. cbn. unfold dim. rewrite H1. reflexivity.
Qed.

(** ** Queries *)
Lemma dimensions_correct psi : dimensions psi = pdims psi.
Proof.
  unfold dimensions, pdims. apply (nth_ext _ _ 0%nat 0%nat).
  - rewrite !map_length, seq_length. reflexivity.
  - intros n Hn. rewrite map_length, seq_length in Hn. rewrite nth_map_seq by assumption.
    unfold site. rewrite (nth_indep _ 0%nat (dim empty 1)) by (rewrite map_length; exact Hn).
    rewrite map_nth with (f := fun A => dim A 1). reflexivity.
Qed.

Lemma largest_bond_spec psi : psi <> [] ->
  (forall k, (k < length psi)%nat -> dim (site psi k) 0 <= largest_bond_dimension psi)%nat /\
  exists k, (k < length psi)%nat /\ dim (site psi k) 0 = largest_bond_dimension psi.
Proof.
  intros Hne. unfold largest_bond_dimension.
  assert (H : forall n, (0 < n)%nat ->
    (forall k, (k < n)%nat -> dim (site psi k) 0 <=
       fold_left (fun i j => Nat.max i (dim (site psi j) 0)) (seq 0 n) 0)%nat /\
    exists k, (k < n)%nat /\ dim (site psi k) 0 =
       fold_left (fun i j => Nat.max i (dim (site psi j) 0)) (seq 0 n) 0%nat).
  { intros n Hn. induction n as [|n IH]; [lia|].
    rewrite seq_S, fold_left_app. cbn [fold_left Nat.add].
    destruct (Nat.eq_dec n 0) as [->|Hn0].
    - cbn. split.
      + intros k Hk. replace k with 0%nat by lia. lia.
      + exists 0%nat. split; [lia|]. reflexivity.
    - destruct (IH ltac:(lia)) as (H1 & k & Hk & Hk2).
      set (m := fold_left _ _ _) in *. split.
      + intros j Hj. destruct (Nat.eq_dec j n) as [->|]; [lia|]. specialize (H1 j ltac:(lia)). lia.
      + destruct (Nat.max_spec m (dim (site psi n) 0)) as [(_ & ->)|(_ & ->)].
        * exists n. split; [lia|reflexivity].
        * exists k. split; [lia|exact Hk2]. }
  apply H. destruct psi; [congruence|cbn; lia].
Qed.

Lemma linked_last l psi r : linked l psi r -> psi <> [] -> dim (site psi (length psi - 1)) 2 = r.
Proof.
  revert l. induction psi as [|A psi IH]; [congruence|]. intros l (d & c & H1 & _ & _ & _ & H5) _.
  destruct psi as [|B psi].
  - cbn in *. unfold site, dim. cbn. rewrite H1. cbn. exact H5.
  - specialize (IH _ H5 ltac:(congruence)). cbn [length] in *. unfold site in *.
    replace (S (S (length psi)) - 1)%nat with (S (length psi)) by lia.
    replace (S (length psi) - 1)%nat with (length psi) in IH by lia. exact IH.
Qed.

Lemma is_periodic_correct psi : wf_mps psi ->
  (is_periodic psi = true <-> (1 < left_bond psi)%nat).
Proof.
  intros (Hne & D & HD & HL). unfold is_periodic.
  pose proof (linked_last _ _ _ HL Hne) as Hlast.
  pose proof (linked_left_bond _ _ _ Hne HL) as Hfirst.
  destruct (length psi) as [|l] eqn:E; [destruct psi; [congruence|discriminate]|].
  replace (S l - 1)%nat with l in Hlast by lia. rewrite Hlast.
  assert (H0 : dim (site psi 0) 0 = D) by (destruct psi; [congruence|exact Hfirst]).
  rewrite H0, Hfirst, Nat.eqb_refl. cbn [andb]. rewrite Nat.ltb_lt. reflexivity.
Qed.

(** ** Local operators *)
Lemma chain_replace l psi r k O A m d is a b :
  linked l psi r -> (k < length psi)%nat -> length is = length psi -> (a < l)%nat ->
  A = site psi k -> dims O = [m; d] -> dim A 1 = d -> (nth k is 0 < m)%nat ->
  chain (replace_nth k (foldin O 1 A 1) psi) is a b =
  sum d (fun j => get O [nth k is 0%nat; j] * chain psi (replace_nth k j is) a b).
Proof.
  revert l k is a. induction psi as [|B psi IH]; intros l k is a HL Hk Hlen Ha HA HO Hd Hi; cbn in Hk; [lia|].
  destruct HL as (d' & c & H1 & H2 & H3 & H4 & H5).
  destruct is as [|i is]; [discriminate|]. cbn in Hlen.
  destruct k as [|k].
  - unfold site in HA. cbn [nth] in HA. subst B. cbn [replace_nth chain nth].
    assert (d' = d) by (unfold dim in Hd; rewrite H1 in Hd; exact Hd). subst d'.
    assert (HF : dims (foldin O 1 A 1) = [l; m; c]) by (unfold foldin; rewrite H1, HO; reflexivity).
    assert (HB : dim A 2 = c) by (unfold dim; rewrite H1; reflexivity). rewrite !HB.
    assert (HB' : dim (foldin O 1 A 1) 2 = c) by (unfold dim; rewrite HF; reflexivity). rewrite !HB'.
    transitivity (sum c (fun x => sum d (fun j => get O [i; j] * get A [a; j; x] * chain psi is x b))).
    + apply sum_ext. intros x Hx.
      unfold foldin, rank, dim. rewrite H1, HO. cbn [firstn skipn remove_nth app nth length Nat.sub].
      rewrite get_mk by (apply in_range_3; auto). cbn [firstn skipn app insert_nth].
      rewrite sum_mul_r. reflexivity.
    + rewrite sum_swap. apply sum_ext. intros j Hj. rewrite sum_mul_l. apply sum_ext. intros x Hx. ring.
  - unfold site in HA. cbn [nth] in HA. cbn [replace_nth chain nth].
    assert (HB : dim B 2 = c) by (unfold dim; rewrite H1; reflexivity). rewrite !HB.
    transitivity (sum c (fun x => sum d (fun j => get B [a; i; x] *
       (get O [nth k is 0%nat; j] * chain psi (replace_nth k j is) x b)))).
    + apply sum_ext. intros x Hx. rewrite (IH c k is x) by (auto; lia). apply sum_mul_l.
    + rewrite sum_swap. apply sum_ext. intros j Hj. rewrite sum_mul_l. apply sum_ext. intros x Hx. ring.
Qed.

Lemma linked_replace l psi r k A d : linked l psi r -> (k < length psi)%nat ->
  dims A = [dim (site psi k) 0; d; dim (site psi k) 2] -> wf A -> (0 < d)%nat ->
  linked l (replace_nth k A psi) r.
Proof.
  revert l k. induction psi as [|B psi IH]; intros l k HL Hk HA HwA Hd; cbn in Hk; [lia|].
  destruct HL as (d' & c & H1 & H2 & H3 & H4 & H5).
  destruct k as [|k]; cbn [replace_nth linked].
  - exists d, c. unfold site, dim in HA. cbn [nth] in HA. rewrite H1 in HA. cbn [nth] in HA.
    repeat split; auto.
  - exists d', c. repeat split; auto. apply IH; auto. lia.
Qed.

Lemma site_dims l psi r k : linked l psi r -> (k < length psi)%nat ->
  exists x y z, dims (site psi k) = [x; y; z] /\ wf (site psi k) /\ (0 < y)%nat /\ (0 < z)%nat.
Proof.
  revert l k. induction psi as [|B psi IH]; intros l k HL Hk; cbn in Hk; [lia|].
  destruct HL as (d' & c & H1 & H2 & H3 & H4 & H5). destruct k as [|k].
  - exists l, d', c. auto.
  - apply (IH c k H5). lia.
Qed.

Lemma apply_local_operator_correct psi O (k : nat) m :
  wf_mps psi -> (k < length psi)%nat -> dims O = [m; nth k (pdims psi) 0%nat] -> (0 < m)%nat ->
  exists phi, apply_local_operator psi O (Z.of_nat k) = Ok phi /\ wf_mps phi /\
    pdims phi = replace_nth k m (pdims psi) /\
    (forall j, j <> k -> site phi j = site psi j) /\
    (forall is, in_range (pdims phi) is ->
      amp phi is = sum (nth k (pdims psi) 0%nat) (fun j => get O [nth k is 0%nat; j] * amp psi (replace_nth k j is))).
Proof.
  intros (Hne & D & HD & HL) Hk HO Hm. unfold apply_local_operator, site_at.
  assert (Hr : ((0 <=? Z.of_nat k)%Z && (Z.of_nat k <? Z.of_nat (length psi))%Z) = true).
  { apply andb_true_intro. split; [apply Z.leb_le|apply Z.ltb_lt]; lia. }
  rewrite Hr. cbn [bind]. rewrite Nat2Z.id. eexists. split; [reflexivity|].
  assert (Hrank : (rank O - 1 = 1)%nat) by (unfold rank; rewrite HO; reflexivity). rewrite Hrank.
  destruct (site_dims _ _ _ k HL Hk) as (x & y & z & Hd & Hw & Hy & Hz).
  assert (Hpk : nth k (pdims psi) 0%nat = y).
  { unfold pdims. rewrite (nth_indep _ 0%nat (dim empty 1)) by (rewrite map_length; exact Hk).
    rewrite map_nth with (f := fun A => dim A 1). fold (site psi k). unfold dim. rewrite Hd. reflexivity. }
  rewrite Hpk in *.
  set (A := foldin O 1 (site psi k) 1).
  assert (HA : dims A = [x; m; z]) by (unfold A, foldin; rewrite Hd, HO; reflexivity).
  assert (HL' : linked D (replace_nth k A psi) D).
  { apply (linked_replace D psi D k A m); auto; [|apply wf_mk].
    unfold dim. rewrite Hd. exact HA. }
  assert (Hne' : replace_nth k A psi <> []).
  { intros E. apply (f_equal (@length _)) in E. rewrite length_replace_nth in E. cbn in E. lia. }
  split; [split; [exact Hne'|exists D; auto]|].
  assert (Hpd : pdims (replace_nth k A psi) = replace_nth k m (pdims psi)).
  { clearbody A. clear -HA. revert k. induction psi as [|B psi IH]; intros k; [destruct k; reflexivity|].
    destruct k; cbn.
    - unfold dim at 1. rewrite HA. reflexivity.
    - f_equal. apply IH. }
  split; [exact Hpd|]. split.
  - intros j Hj. unfold site. apply nth_replace_nth_neq. exact Hj.
  - intros is His. rewrite Hpd in His. unfold amp.
    rewrite (linked_left_bond _ _ _ Hne' HL'), (linked_left_bond _ _ _ Hne HL).
    pose proof (in_range_length _ _ His) as Hlen. rewrite length_replace_nth, length_pdims in Hlen.
    assert (Hik : (nth k is 0 < m)%nat).
    { pose proof (in_range_nth _ _ k His) as H. rewrite length_replace_nth, length_pdims in H.
      rewrite nth_replace_nth_eq in H by (rewrite length_pdims; exact Hk). auto. }
    transitivity (sum D (fun a => sum y (fun j => get O [nth k is 0%nat; j] * chain psi (replace_nth k j is) a a))).
    + apply sum_ext. intros a Ha. eapply chain_replace; eauto. unfold dim. rewrite Hd. reflexivity.
    + rewrite sum_swap. apply sum_ext. intros j Hj. rewrite sum_mul_l. reflexivity.
Qed.

(** ** Product states *)
Lemma chain_product vs is :
  Forall (fun v => exists d, dims v = [d]) vs -> length is = length vs ->
  chain (map (fun v => reshape v [1%nat; dim v 0; 1%nat]) vs) is 0 0 = product_amp vs is.
Proof.
  revert is. induction vs as [|v vs IH]; intros [|i is] Hv Hl; cbn in Hl; try discriminate.
  - reflexivity.
  - inversion Hv as [|? ? (d & Hd) Hvs]; subst. cbn [map chain]. unfold dim at 1. cbn [dims reshape nth].
    rewrite sum_1. rewrite IH by (auto; lia).
    unfold product_amp. cbn [combine map kprod fst snd]. f_equal.
    apply get_reshape. rewrite Hd. cbn. lia.
Qed.

Lemma product_state_correct L v d : (0 < L)%nat -> dims v = [d] -> wf v -> (0 < d)%nat ->
  exists psi, product_state L v = Ok psi /\ length psi = L /\ open_mps psi /\
    is_periodic psi = false /\ pdims psi = repeat d L /\
    forall is, length is = L -> amp psi is = product_amp (repeat v L) is.
Proof.
  intros HL Hd Hw Hd0. unfold product_state. unfold rank. rewrite Hd. cbn [length Nat.eqb andb].
  rewrite is_empty_wf by (auto; rewrite Hd; cbn; lia). cbn [negb andb].
  destruct (Nat.ltb_spec 0 L); [|lia]. eexists. split; [reflexivity|].
  unfold dim. rewrite Hd. cbn [nth]. set (A := reshape v [1%nat; d; 1%nat]).
  assert (HwA : wf A) by (apply wf_reshape; [exact Hw|rewrite Hd; cbn; lia]).
  assert (Hlink : forall n, linked 1 (repeat A n) 1).
  { induction n as [|n IH]; cbn; [reflexivity|]. exists d, 1%nat. repeat split; auto. }
  assert (Hne : repeat A L <> []) by (destruct L; [lia|cbn; congruence]).
  split; [apply repeat_length|]. split; [split; auto|]. split; [|split].
  - unfold is_periodic. rewrite repeat_length. destruct L as [|L]; [lia|].
    assert (H0 : dim (site (repeat A (S L)) 0) 0 = 1%nat) by reflexivity. rewrite H0.
    cbn. apply andb_false_r.
  - unfold pdims. rewrite <- (map_id (repeat d L)).
    clear. induction L; cbn; [reflexivity|]. f_equal. exact IHL.
  - intros is His. unfold amp. rewrite (linked_left_bond _ _ _ Hne (Hlink L)), sum_1.
    replace (repeat A L) with (map (fun v => reshape v [1%nat; dim v 0; 1%nat]) (repeat v L)).
    + apply chain_product; [|rewrite repeat_length; exact His].
      apply Forall_forall. intros x Hx. apply repeat_spec in Hx. subst x. eauto.
    + clear -Hd. induction L; cbn; [reflexivity|]. rewrite IHL. unfold A, dim. rewrite Hd. reflexivity.
Qed.

(** The squared norm of a product is the product of the squared norms. *)
Lemma product_amp_norm vs ds : Forall2 (fun v d => dims v = [d]) vs ds ->
  inner ds (product_amp vs) (product_amp vs) =
  kprod (map (fun p => sum (snd p) (fun i => kconj (get (fst p) [i]) * get (fst p) [i])) (combine vs ds)).
Proof.
  intros H. unfold inner. induction H as [|v d vs ds Hv H IH].
  - cbn. rewrite kconj_1. ring.
  - cbn [sumcfg combine map kprod fst snd].
    rewrite <- IH. rewrite sum_mul_r. apply sum_ext. intros i Hi.
    rewrite sumcfg_mul_l. apply sumcfg_ext. intros is His.
    unfold product_amp. cbn [combine map kprod fst snd]. rewrite kconj_mul. ring.
Qed.

End Facts.
