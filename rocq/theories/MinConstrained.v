(** * The local problem of minimize() with a constraint (two-site algorithm) *)
From Coq Require Import Reals Lra Bool List Arith ZArith Lia Ring.
From Verif Require Import Scalar ScalarFacts RScal Tensor TensorFacts Spec MpsModel MpsFacts StateFacts StateFacts2 MpoSpec MpoFacts CanonSpec CanonModel
  TruncFacts SplitFacts CanonFacts CanonSweep CanonNorm CanonProps CanonTwo SweepFacts FormModel FormSpec LFormFacts QFormFacts QFormInv QFormValue QFormMain
  SimplifySpec SimplifyModel SimplifyFacts SimplifyStep SimplifyPair SimplifyDouble MinimizerModel MinLive MinimizeSpec MinLocal MinStep MinSweep MinLoop.
Import ListNotations.
Local Open Scope K_scope.

Section Spread.
Context {RS : RScal}.
Add Ring Kring : k_ring.

(** The vector with the elements x at the positions [sub], zero elsewhere *)
Definition spread (sub : list nat) (x : nat -> K) (r : nat) : K := sum (length sub) (fun t => delta (nth t sub 0%nat) r * x t).

Lemma spread_cons s sub x r : spread (s :: sub) x r = delta s r * x 0%nat + spread sub (fun t => x (S t)) r.
Proof. unfold spread. cbn [length]. rewrite sum_S_l. reflexivity. Qed.

Lemma spread_out sub x r : ~ In r sub -> spread sub x r = 0.
Proof.
  intros Hr. apply sum_zero. intros t Ht. unfold delta. destruct (Nat.eqb_spec (nth t sub 0%nat) r) as [E|E]; [|ring].
  exfalso. apply Hr. rewrite <- E. apply nth_In. exact Ht.
Qed.

Lemma spread_at sub x t : NoDup sub -> (t < length sub)%nat -> spread sub x (nth t sub 0%nat) = x t.
Proof.
  intros Hn Ht. unfold spread. rewrite (sum_single _ t); [|exact Ht|].
  - rewrite delta_refl. ring.
  - intros u Hu Hne. unfold delta. destruct (Nat.eqb_spec (nth u sub 0%nat) (nth t sub 0%nat)) as [E|E]; [|ring].
    exfalso. apply Hne. apply (proj1 (NoDup_nth sub 0%nat) Hn); assumption.
Qed.

Lemma spread_sum n sub x (G : nat -> K) : (forall s, In s sub -> (s < n)%nat) ->
  sum n (fun r => spread sub x r * G r) = sum (length sub) (fun t => x t * G (nth t sub 0%nat)).
Proof.
  intros Hs. rewrite (sum_ext n _ (fun r => sum (length sub) (fun t => delta (nth t sub 0%nat) r * (x t * G r)))).
  - rewrite sum_swap. apply sum_ext. intros t Ht. rewrite sum_delta_l' by (apply Hs, nth_In; exact Ht). reflexivity.
  - intros r Hr. unfold spread. rewrite sum_mul_r. apply sum_ext. intros t _. ring.
Qed.

Lemma spread_conj sub x r : kconj (spread sub x r) = spread sub (fun t => kconj (x t)) r.
Proof.
  unfold spread. rewrite sum_conj. apply sum_ext. intros t _. rewrite kconj_mul. unfold delta. destruct (Nat.eqb _ r); rewrite ?kconj_0, ?kconj_1; reflexivity.
Qed.

Lemma spread_weight n sub x : NoDup sub -> (forall s, In s sub -> (s < n)%nat) ->
  rsum n (fun r => kmod2 (spread sub x r)) = rsum (length sub) (fun t => kmod2 (x t)).
Proof.
  intros Hn Hs. apply rinj_inj. rewrite !rinj_rsum.
  rewrite (sum_ext n _ (fun r => spread sub (fun t => kconj (x t)) r * spread sub x r)).
  - rewrite spread_sum by exact Hs. apply sum_ext. intros t Ht. rewrite spread_at by assumption. rewrite kmod2_spec. reflexivity.
  - intros r _. rewrite kmod2_spec, spread_conj. reflexivity.
Qed.

Lemma spread_form n sub x y (M : nat -> nat -> K) : (forall s, In s sub -> (s < n)%nat) ->
  sum n (fun r => sum n (fun c => kconj (spread sub x r) * M r c * spread sub y c)) =
  sum (length sub) (fun t => sum (length sub) (fun u => kconj (x t) * M (nth t sub 0%nat) (nth u sub 0%nat) * y u)).
Proof.
  intros Hs. rewrite (sum_ext n _ (fun r => spread sub (fun t => kconj (x t)) r * sum (length sub) (fun u => y u * M r (nth u sub 0%nat)))).
  - rewrite spread_sum by exact Hs. apply sum_ext. intros t _. rewrite sum_mul_l. apply sum_ext. intros u _. ring.
  - intros r _. rewrite <- spread_conj. rewrite <- (spread_sum n sub y (fun c => M r c) Hs). rewrite sum_mul_l. apply sum_ext. intros c _. ring.
Qed.

(** Any vector that vanishes outside [sub] *)
Lemma spread_gather n sub x : NoDup sub -> (forall r, (r < n)%nat -> x r <> 0 -> In r sub) ->
  forall r, (r < n)%nat -> spread sub (fun t => x (nth t sub 0%nat)) r = x r.
Proof.
  intros Hn Hx r Hr. destruct (in_dec Nat.eq_dec r sub) as [Hi|Hi].
  - destruct (In_nth sub r 0%nat Hi) as (t & Ht & <-). rewrite spread_at by assumption. reflexivity.
  - rewrite spread_out by exact Hi. destruct (keqb_spec (x r) 0) as [->|Hne]; [reflexivity|]. exfalso. apply Hi, Hx; assumption.
Qed.

(** scatter and gather *)
Lemma nth_scatter l : forall idx vals r, NoDup idx -> length vals = length idx -> (forall s, In s idx -> (s < length l)%nat) ->
  nth r (fold_left (fun l p => replace_nth (fst p) (snd p) l) (combine idx vals) l) 0 =
  if in_dec Nat.eq_dec r idx then spread idx (fun t => nth t vals 0) r else nth r l 0.
Proof.
  intros idx. revert l. induction idx as [|s idx IH]; intros l vals r Hn Hl Hs.
  - destruct (in_dec Nat.eq_dec r []) as [[]|_]. reflexivity.
  - destruct vals as [|v vals]; [discriminate Hl|]. cbn [combine fold_left fst snd]. apply NoDup_cons_iff in Hn. destruct Hn as (Hn1 & Hn2).
    rewrite IH; [|exact Hn2|cbn in Hl; lia|intros t Ht; rewrite length_replace_nth; apply Hs; right; exact Ht].
    rewrite spread_cons. cbn [nth].
    destruct (in_dec Nat.eq_dec r idx) as [Hi|Hi], (in_dec Nat.eq_dec r (s :: idx)) as [Hj|Hj].
    + unfold delta. destruct (Nat.eqb_spec s r) as [->|E]; [contradiction|]. ring.
    + exfalso. apply Hj. right. exact Hi.
    + destruct Hj as [->|Hj]; [|contradiction]. rewrite nth_replace_nth_eq by (apply Hs; left; reflexivity). rewrite delta_refl, spread_out by exact Hi. ring.
    + rewrite nth_replace_nth_neq; [reflexivity|]. intros ->. apply Hj. left. reflexivity.
Qed.

Lemma length_scatter l : forall ps : list (nat * K), length (fold_left (fun l p => replace_nth (fst p) (snd p) l) ps l) = length l.
Proof. intros ps. revert l. induction ps as [|p ps IH]; intros l; cbn [fold_left]; [reflexivity|]. rewrite IH. apply length_replace_nth. Qed.

Lemma scatter_spread d sub v : NoDup sub -> length (data v) = length sub -> (forall s, In s sub -> (s < nprod d)%nat) ->
  scatter (zeros d) sub v = ten d (spread sub (fun t => nth t (data v) 0)).
Proof.
  intros Hn Hl Hs. unfold scatter, ten. cbn [zeros mk dims data]. f_equal.
  assert (Hz : length (data (zeros d)) = nprod d) by apply wf_mk.
  apply (nth_ext _ _ 0 0).
  - rewrite length_scatter, map_length, seq_length, map_length, seq_length. reflexivity.
  - intros r Hr. rewrite length_scatter, map_length, seq_length in Hr.
    rewrite (nth_map_seq (spread sub (fun t => nth t (data v) 0))) by exact Hr.
    rewrite nth_scatter; [|exact Hn|exact Hl|rewrite map_length, seq_length; exact Hs].
    destruct (in_dec Nat.eq_dec r sub) as [Hi|Hi]; [reflexivity|]. rewrite spread_out by exact Hi.
    apply (nth_map_seq (fun _ => 0)). exact Hr.
Qed.

Lemma gather_ok t idx : (forall s, In s idx -> (s < length (data t))%nat) ->
  gather t idx = Ok (mkT [length idx] (map (fun i => nth i (data t) 0) idx)).
Proof.
  intros Hs. unfold gather. replace (forallb (fun i => Nat.ltb i (length (data t))) idx) with true; [reflexivity|].
  symmetry. apply forallb_forall. intros i Hi. apply Nat.ltb_lt. apply Hs. exact Hi.
Qed.

(** The problem restricted to the positions [sub] *)
Lemma sub_acts d sense f M sub : NoDup sub -> (forall s, In s sub -> (s < nprod d)%nat) ->
  acts_as (apply_qform2 sense d f []) (nprod d) M ->
  acts_as (apply_qform2_with_subspace sense d f sub []) (length sub) (fun i j => M (nth i sub 0%nat) (nth j sub 0%nat)).
Proof.
  intros Hn Hs HA v Hw Hd. set (n := nprod d) in *. set (x := fun t => nth t (data v) 0).
  assert (Hlv : length (data v) = length sub) by (unfold wf in Hw; rewrite Hd in Hw; cbn in Hw; lia).
  unfold apply_qform2_with_subspace. rewrite scatter_spread by assumption. fold x. change (orthogonalize ?t []) with t.
  destruct (HA (ten [n] (spread sub x)) (wf_ten _ _) eq_refl) as (w & Ew & Hww & Hdw & Hval).
  unfold apply_qform2 in Ew. destruct (checked_reshape_ok (ten [n] (spread sub x)) d (wf_ten _ _) eq_refl) as (E1 & E2). rewrite E1 in Ew. cbn [bind] in Ew.
  assert (E3 : reshape (ten [n] (spread sub x)) d = ten d (spread sub x)).
  { unfold reshape, ten. cbn [data nprod fold_right]. rewrite Nat.mul_1_r. reflexivity. }
  rewrite E3 in Ew. change (orthogonalize (ten d (spread sub x)) []) with (ten d (spread sub x)) in Ew.
  destruct (apply_two_site_matrix f (ten d (spread sub x)) sense) as [w0|] eqn:E0; [|discriminate Ew]. cbn [bind] in Ew |- *. apply Ok_inj' in Ew. cbn [orthogonalize fold_left] in Ew |- *.
  assert (Hl0 : length (data w0) = n).
  { apply (f_equal dims) in Ew. rewrite Hdw in Ew. cbn in Ew. congruence. }
  assert (Hv0 : forall r, (r < n)%nat -> nth r (data w0) 0 = sum n (fun c => M r c * spread sub x c)).
  { intros r Hr. specialize (Hval r Hr). rewrite <- Ew in Hval. change (get (reshape w0 [length (data w0)]) [r]) with (nth (r + length (data w0) * 0) (data w0) 0) in Hval.
    rewrite Nat.mul_0_r, Nat.add_0_r in Hval. rewrite Hval. apply sum_ext. intros c Hc. f_equal. rewrite get_ten by (apply in_range_1; exact Hc). f_equal. cbn. lia. }
  rewrite gather_ok by (intros s Hi; rewrite Hl0; apply Hs; exact Hi).
  eexists. split; [reflexivity|]. split; [unfold wf; cbn [data dims nprod fold_right]; rewrite map_length; lia|]. split; [reflexivity|].
  intros i Hi. unfold get at 1. cbn [dims data offset]. rewrite Nat.mul_0_r, Nat.add_0_r.
  rewrite (nth_indep _ 0 ((fun i => nth i (data w0) 0) 0%nat)) by (rewrite map_length; exact Hi). rewrite (map_nth (fun i => nth i (data w0) 0)).
  rewrite Hv0 by (apply Hs, nth_In; exact Hi).
  rewrite (sum_ext n _ (fun c => spread sub x c * M (nth i sub 0%nat) c)) by (intros; ring). rewrite spread_sum by exact Hs.
  apply sum_ext. intros t Ht. assert (E : get v [t] = x t) by (unfold x, get; rewrite Hd; cbn [offset]; f_equal; lia). rewrite E. ring.
Qed.

Lemma sub_family (H : mpo) (ds : list nat) n emb M sub : NoDup sub -> (forall s, In s sub -> (s < n)%nat) -> family H ds n emb M ->
  family H ds (length sub) (fun x => emb (spread sub x)) (fun i j => M (nth i sub 0%nat) (nth j sub 0%nat)).
Proof.
  intros Hn Hs (F1 & F2 & F3). split; [intros x; apply F1|]. split.
  - intros x. rewrite F2. apply spread_weight; assumption.
  - intros x y. rewrite F3. apply spread_form; assumption.
Qed.
End Spread.

(** ** The diagonal of the constraint *)
Section Diag.
Context {RS : RScal}.
Add Ring Kring2 : k_ring.

Lemma live_diag2 (O : mpo) (HO : open_mpo O) (Hsq : odims O = idims O) b (Hb : path O b) f p q p' q' sense S1 S2 T1 T2 v :
  two_sites f sense = Ok (length p, length p + 1)%nat -> qinv0 O f -> length p' = length p -> length q' = length q -> (length p + 2 + length q = length O)%nat ->
  (forall m ra rb, (m < bond O (length p))%nat -> linked 1 p ra -> linked 1 p' rb ->
     vten [1; 1; ra; rb]%nat (qf_left f (length p) m) (lenv_of (fun z w => QM p p' (firstn (length p) O) 0 0 0 z w m))) ->
  (forall n ca cb, (n < bond O (length p + 2))%nat -> (0 < ca)%nat -> (0 < cb)%nat -> linked ca q 1 -> linked cb q' 1 ->
     vten [ca; cb; 1; 1]%nat (qf_right f (length p + 1) n) (renv_of (fun z w => QM q q' (skipn (length p + 2) O) z w n 0 0 0))) ->
  live O b f ->
  linked 1 (p ++ S1 :: S2 :: q) 1 -> linked 1 (p' ++ T1 :: T2 :: q') 1 ->
  pdims (p ++ S1 :: S2 :: q) = odims O -> pdims (p' ++ T1 :: T2 :: q') = idims O ->
  take_two_site_matrix_diag f sense = Ok v -> is_empty v = false.
Proof.
  intros Hs H0 Hpp Hqq Hlen HL HR Hlive HS HT HdS HdT Hv.
  destruct (two_site_setup O HO Hsq f p q p' q' S1 S2 T1 T2 H0 Hpp Hqq Hlen HL HR HS HT HdS HdT) as
    (ra & rb & ca & cb & d1 & d2 & _ & DT & Hpos & _ & _ & _ & _ & Ht1 & Ht2 & Hp1 & Hp2 & HL' & HR' & _).
  unfold take_two_site_matrix_diag in Hv. rewrite Hs in Hv. cbn [bind] in Hv. rewrite Hp1, Hp2 in Hv. revert Hv. apply add_pairs2_live.
  - intros q1 q2 Hq1 Hq2 HE. apply orb_false_iff in HE. destruct HE as (E1 & E2). eexists. split; [reflexivity|].
    destruct (site_pairs_In _ _ _ _ _ q1 Ht1 Hq1) as (m & n & Hm & Hn & ->). destruct (site_pairs_In _ _ _ _ _ q2 Ht2 Hq2) as (m' & n' & Hm' & Hn' & ->).
    change (p_op (new_pair m n (site O (length p)))) with (blk (site O (length p)) m n) in *.
    change (p_op (new_pair m' n' (site O (length p + 1)))) with (blk (site O (length p + 1)) m' n') in *.
    cbn [p_left p_right p_op new_pair] in *.
    destruct (vten_full _ _ _ (HL' m Hm) E1) as (W1 & W2). destruct (vten_full _ _ _ (HR' n' Hn') E2) as (V1 & V2).
    pose proof (blk_dims _ m n _ _ _ _ Ht1) as DB1. pose proof (blk_dims _ m' n' _ _ _ _ Ht2) as DB2.
    apply is_empty_wf; [apply wf_mk|]. unfold kron2_vec, take_diag, dim. rewrite !dims_mk. cbn [nth dims mk reshape nprod fold_right].
    rewrite W2, V2, DB1, DB2. cbn [nth]. nia.
  - exists (new_pair (b (length p)) (b (Datatypes.S (length p))) (site O (length p))),
           (new_pair (b (Datatypes.S (length p))) (b (Datatypes.S (Datatypes.S (length p)))) (site O (Datatypes.S (length p)))).
    rewrite Nat.add_1_r. split; [apply Hb; lia|]. split; [apply Hb; lia|]. cbn [p_left p_right new_pair]. split; [reflexivity|].
    apply orb_false_iff. split; [apply Hlive; lia|]. unfold qf_right. rewrite Nat.add_1_r. apply Hlive. lia.
Qed.

Variables (N : mpo) (ds : list nat).
Hypothesis HN : hamiltonian N ds.
Variable b : nat -> nat.
Hypothesis Hb : path N b.

Lemma two_diag f k k' (d : bool) kk P a i m j c : open_mps P -> pdims P = ds -> (S kk < length P)%nat ->
  dims (site P kk) = [a; i; m] -> dims (site P (S kk)) = [m; j; c] -> (0 < a /\ 0 < i /\ 0 < m /\ 0 < j /\ 0 < c)%nat ->
  QAt N ds b k P f -> moved d (length P) k k' -> kk = Nat.min k k' ->
  exists aux, take_two_site_matrix_diag f (sgn d) = Ok aux /\ length (data aux) = nprod [a; i; j; c] /\
    forall r, (r < nprod [a; i; j; c])%nat -> nth r (data aux) 0 = sandwich (emb2 kk P (delta r)) N (emb2 kk P (delta r)).
Proof.
  intros Ho Hd Hkk D1 D2 Hpos HQ Hm Ekk. pose proof HQ as (_ & _ & Hk & Hh & Hlive). pose proof (qat_qinv N ds HN b k P f HQ) as Hi.
  set (p := firstn kk P) in *. set (q := skipn (S (S kk)) P) in *.
  assert (Elen : length p = kk) by (unfold p; rewrite firstn_length; lia).
  assert (HT : two_sites f (sgn d) = Ok (length p, length p + 1)%nat /\ qinv0 N f /\ length p = length p /\ length q = length q /\ (length p + 2 + length q = length N)%nat /\
  (forall m ra rb, (m < bond N (length p))%nat -> linked 1 p ra -> linked 1 p rb ->
     vten [1; 1; ra; rb]%nat (qf_left f (length p) m) (lenv_of (fun z w => QM p p (firstn (length p) N) 0 0 0 z w m))) /\
  (forall n ca cb, (n < bond N (length p + 2))%nat -> (0 < ca)%nat -> (0 < cb)%nat -> linked ca q 1 -> linked cb q 1 ->
     vten [ca; cb; 1; 1]%nat (qf_right f (length p + 1) n) (renv_of (fun z w => QM q q (skipn (length p + 2) N) z w n 0 0 0)))).
  { destruct d; cbn [moved sgn] in *.
    - destruct Hm as (-> & Hk'). assert (kk = k) by lia. unfold p, q. subst kk. replace (Nat.min k (S k)) with k in * by lia.
      rewrite (skipn_site (S k) P Hk') in Hi. apply (two_right_hyps N f _ _ _ _ _ _ Hi).
    - subst k. assert (kk = k') by lia. unfold p, q. subst kk. replace (Nat.min (S k') k') with k' in * by lia.
      rewrite (firstn_S_site k' P) in Hi by lia. apply (two_left_hyps N f _ _ _ _ _ _ Hi). }
  destruct HT as (T1 & T2 & T3 & T4 & T5 & T6 & T7).
  assert (Hsp : forall x, linked 1 (p ++ id3 a i :: ten [a * i; j; c]%nat x :: q) 1 /\ pdims (p ++ id3 a i :: ten [a * i; j; c]%nat x :: q) = ds /\
    emb2 kk P x = p ++ id3 a i :: ten [a * i; j; c]%nat x :: q).
  { intros x. destruct (emb2_open ds kk P a i m j c Ho Hd Hkk D1 D2 Hpos x) as ((_ & O1) & P1). rewrite (emb2_eq kk P a i m j c D1 D2) in *. auto. }
  set (n := nprod [a; i; j; c]). set (d4 := [a; i; j; c]) in *.
  pose proof (H_open N ds HN) as HO. pose proof (H_sq N ds HN) as Hsq. pose proof (H_o N ds HN) as Eo. pose proof (H_i N ds HN) as Ei.
  assert (Ev : exists aux, take_two_site_matrix_diag f (sgn d) = Ok aux /\ dims aux = [n] /\ wf aux).
  { destruct (Hsp (fun _ => 0)) as (L0 & D0 & _).
    destruct (two_site_setup N HO Hsq f p q p q _ _ _ _ T2 T3 T4 T5 T6 T7 L0 L0 ltac:(congruence) ltac:(congruence)) as
          (ra & rb & ca & cb & d1 & d2 & DS & DT & Hpos' & B1 & B2 & B3 & B4 & Ht1 & Ht2 & Hp1 & Hp2 & HL' & HR' & _).
    rewrite fold_id3 in DS, DT. cbn [dims ten] in DS, DT. injection DS as <- <- <- <-. injection DT as <- <-.
    destruct (two_diag_vten _ _ _ _ _ _ _ _ _ _ _ _ _ _ _ Ht1 Ht2 Hpos' HL' HR' eq_refl eq_refl) as (v & Hv & HW).
    assert (Ev : take_two_site_matrix_diag f (sgn d) = Ok v) by (unfold take_two_site_matrix_diag; rewrite T1; cbn [bind]; rewrite Hp1, Hp2; exact Hv).
    exists v. split; [exact Ev|].
    pose proof (live_diag2 N HO Hsq b Hb f p q p q (sgn d) _ _ _ _ v T1 T2 T3 T4 T5 T6 T7 Hlive L0 L0 ltac:(congruence) ltac:(congruence) Ev) as He.
    destruct (vten_full _ _ _ HW He) as (W1 & W2). split; [exact W2|exact W1]. }
  destruct Ev as (aux & Ea & Hda & Hwa). exists aux. split; [exact Ea|]. split; [unfold wf in Hwa; rewrite Hda in Hwa; cbn [nprod fold_right] in Hwa; rewrite Nat.mul_1_r in Hwa; exact Hwa|].
  intros r Hr. destruct (Hsp (delta r)) as (Lx & Dx & ->).
  destruct (two_diag_value N HO Hsq f p q p q (sgn d) T1 T2 T3 T4 T5 T6 T7 _ _ _ _ Lx Lx ltac:(congruence) ltac:(congruence) eq_refl eq_refl) as (M & v & EM & Ev & _ & Hv).
  rewrite Ea in Ev. apply Ok_inj' in Ev. subst v. rewrite fold_id3 in Hv. specialize (Hv r Hr).
  destruct (two_matrix_value N HO Hsq f p q p q (sgn d) T1 T2 T3 T4 T5 T6 T7 _ _ _ _ Lx Lx ltac:(congruence) ltac:(congruence)) as (M' & EM' & _ & <-).
  rewrite EM in EM'. apply Ok_inj' in EM'. subst M'. rewrite fold_id3. unfold msandwich. cbn [dims ten]. fold d4. fold n.
  rewrite (sum_ext n _ (fun r' => sum n (fun c' => kconj (delta r r') * elem M [r'; c'] * delta r c'))).
  - rewrite sum_delta2 by exact Hr. rewrite <- Hv. unfold elem. unfold is_empty. 
    assert (Hne : is_empty aux = false) by (apply is_empty_wf; [exact Hwa|rewrite Hda; unfold n, d4; cbn; nia]). unfold is_empty in Hne. rewrite Hne.
    unfold get. rewrite Hda. cbn [offset]. f_equal. lia.
  - intros r' Hr'. apply sum_ext. intros c' Hc'. rewrite !nth_ten by assumption. reflexivity.
Qed.
End Diag.

(** ** The states of a pair of sites are combinations of a basis *)
Section Linear.
Context {RS : RScal}.
Add Ring Kring3 : k_ring.
Variables (ds : list nat) (kk : nat) (P : mps) (a i m j c : nat).
Hypotheses (Ho : open_mps P) (Hd : pdims P = ds) (Hkk : (S kk < length P)%nat)
  (D1 : dims (site P kk) = [a; i; m]) (D2 : dims (site P (S kk)) = [m; j; c]) (Hpos : (0 < a /\ 0 < i /\ 0 < m /\ 0 < j /\ 0 < c)%nat).

Lemma emb2_amp is : in_range ds is -> exists i1 y z i2, is = i1 ++ y :: z :: i2 /\ length i1 = kk /\ (y < i)%nat /\ (z < j)%nat /\
  forall x, amp (emb2 kk P x) is = amp_two (firstn kk P) a c (fun u v w t => x (offset [a; i; j; c] [u; v; w; t])) (skipn (S (S kk)) P) 1 i1 y z i2.
Proof.
  intros Hi. destruct Hpos as (Ha & Hi0 & Hm & Hj & Hc).
  destruct (linked_split2 1 P 1 kk (proj2 Ho) ltac:(lia) Hkk) as (a' & i' & m' & j' & c' & L1 & L2 & L3 & L4 & L5 & L6 & L7 & L8 & L9 & L10 & L11).
  rewrite D1 in L4. injection L4 as <- <- <-. rewrite D2 in L8. injection L8 as <- <-.
  rewrite <- Hd, <- (put2_self kk P Hkk) in Hi. unfold put2 in Hi. rewrite pdims_app in Hi. apply SparseFacts.in_range_app in Hi.
  destruct Hi as (i1 & i2 & -> & H1 & H2). cbn [pdims map] in H2. apply in_range_cons_inv in H2. destruct H2 as (y & i3 & -> & Hy & H2).
  apply in_range_cons_inv in H2. destruct H2 as (z & i4 & -> & Hz & H2). unfold dim in Hy, Hz. rewrite D1 in Hy. rewrite D2 in Hz. cbn [nth] in Hy, Hz.
  assert (E1 : length i1 = length (firstn kk P)) by (rewrite (ScalarFacts.in_range_length _ _ H1); apply length_pdims).
  exists i1, y, z, i4. split; [reflexivity|]. split; [rewrite E1, firstn_length; lia|]. split; [exact Hy|]. split; [exact Hz|]. intros x.
  rewrite (emb2_eq kk P a i m j c D1 D2). unfold put2.
  rewrite (amp_two_pair (firstn kk P) _ (id3 a i) _ 1 a i j c (a * i)%nat) by (try assumption; first [nia|apply wf_mk|apply wf_ten|reflexivity]).
  apply amp_two_ext. intros u w Hu Hw. rewrite join_id3 by assumption. reflexivity.
Qed.

Lemma emb2_comb x is : in_range ds is ->
  amp (emb2 kk P x) is = sum (nprod [a; i; j; c]) (fun r => x r * amp (emb2 kk P (delta r)) is).
Proof.
  intros Hi. destruct (emb2_amp is Hi) as (i1 & y & z & i2 & -> & _ & Hy & Hz & HA). rewrite HA. set (n := nprod [a; i; j; c]).
  rewrite (sum_ext n _ (fun r => x r * amp_two (firstn kk P) a c (fun u v w t => delta r (offset [a; i; j; c] [u; v; w; t])) (skipn (S (S kk)) P) 1 i1 y z i2)) by (intros; rewrite HA; reflexivity).
  unfold amp_two. rewrite (sum_ext n _ (fun r => sum 1 (fun l => sum a (fun u => sum c (fun t => x r * (chain (firstn kk P) i1 l u * delta r (offset [a; i; j; c] [u; y; z; t]) * chain (skipn (S (S kk)) P) i2 t l)))))).
  2:{ intros r _. rewrite sum_mul_l. apply sum_ext. intros l _. rewrite sum_mul_l. apply sum_ext. intros u _. rewrite sum_mul_l. reflexivity. }
  symmetry. rewrite sum_swap. apply sum_ext. intros l _. rewrite sum_swap. apply sum_ext. intros u Hu. rewrite sum_swap. apply sum_ext. intros t Ht.
  rewrite (sum_ext n _ (fun r => delta r (offset [a; i; j; c] [u; y; z; t]) * (x r * (chain (firstn kk P) i1 l u * chain (skipn (S (S kk)) P) i2 t l)))) by (intros; ring).
  rewrite sum_delta_l by (apply offset_lt; apply in_range_4; assumption). ring.
Qed.
End Linear.
