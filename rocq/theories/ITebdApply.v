(** * Two-site operators applied to infinite states *)
From Coq Require Import Reals Lra Bool List Arith ZArith Lia Ring.
From Verif Require Import Scalar ScalarFacts RScal Tensor TensorFacts Spec MpsModel MpsFacts EnvFacts CanonModel CanonSpec TruncFacts CanonFacts CanonSweep CanonNorm SplitFacts DecompModel DecompFacts Properties_Decomp LFormFacts LFormValue SvdExist EckartYoung TrotterRun ITebdModel ITebdSpec ITebdFacts ITebdSlow ITebdSpec2 ITebdGauge ITebdCanon ITebdCanon2.
Import ListNotations.
Local Open Scope K_scope.

Section Apply.
Context {RS : RScal}.
Variable svd : tensor -> tensor * list R * tensor.
Hypothesis Hsvd : svd_contract svd.
Variable flag : R.
Add Ring Kring : k_ring.

Section One.
Variables (psi : itebd) (D E dA dB : nat).
Hypothesis HD : (0 < D)%nat.
Hypothesis HE : (0 < E)%nat.
Hypothesis HdA : (0 < dA)%nat.
Hypothesis HdB : (0 < dB)%nat.
Hypothesis HA : dims (iA psi) = [D; dA; E].
Hypothesis HB : dims (iB psi) = [E; dB; D].
Hypothesis HlB : length (ilB psi) = D.
Hypothesis HAl : dims (iAlA psi) = [D; dA; E].
Hypothesis HAlw : wf (iAlA psi).
Hypothesis HBl : dims (iBlB psi) = [E; dB; D].
Hypothesis HBlw : wf (iBlB psi).
Hypothesis HgB : forall b i a, (b < E)%nat -> (i < dB)%nat -> (a < D)%nat -> get (iBlB psi) [b; i; a] = get (iB psi) [b; i; a] * rinj (nth a (ilB psi) 0%R).

Variable U : tensor.
Hypothesis HU : is_matrix U (dA * dB) (dA * dB).

(** The tensor that split_tensor decomposes *)
Definition theta : tensor :=
  let GAB := fold (iAlA psi) (rank (iAlA psi) - 1) (iB psi) 0 in
  let GAB := reshape (foldin U (rank U - 1) (reshape GAB [D; (dA * dB)%nat; D]) 1) [D; dA; dB; D] in
  scale (scale GAB 0 (ilB psi)) 3 (ilB psi).

Lemma theta_ok : dims theta = [D; dA; dB; D] /\ wf theta /\
  forall x p q z, (x < D)%nat -> (p < dA)%nat -> (q < dB)%nat -> (z < D)%nat -> get theta [x; p; q; z] = cell_after psi (mat U) x z [p; q].
Proof.
  destruct (join2_ok (iAlA psi) (iB psi) D dA E dB D HAl HB) as (J1 & J2 & J3).
  set (G := reshape (foldin U (rank U - 1) (join2 (iAlA psi) (iB psi)) 1) [D; dA; dB; D]).
  assert (Et : theta = scale (scale G 0 (ilB psi)) 3 (ilB psi)).
  { unfold theta, G, join2. unfold dim. rewrite HAl, HB. reflexivity. }
  pose proof (dims_foldin_mid U (join2 (iAlA psi) (iB psi)) D (dA * dB) D HU J1) as HdG.
  rewrite Et. split; [reflexivity|]. split; [apply wf_mk|]. intros x p q z Hx Hp Hq Hz.
  rewrite get_scale by (cbn; apply in_range_4; assumption). rewrite get_scale by (cbn; apply in_range_4; assumption). cbn [nth].
  assert (Hpq : (p + dA * q < dA * dB)%nat) by nia.
  assert (Eg : get G [x; p; q; z] = sum dB (fun j => sum dA (fun i => mat U (p + dA * q)%nat (i + dA * j)%nat * chain [iAlA psi; iB psi] [i; j] x z))).
  { transitivity (get (foldin U (rank U - 1) (join2 (iAlA psi) (iB psi)) 1) [x; (p + dA * q)%nat; z]).
    { unfold G. apply get_reshape. rewrite HdG. cbn [offset]. nia. }
    rewrite (get_foldin_mid U _ D (dA * dB) D) by assumption. rewrite (sum_merge dA dB). apply sum_ext. intros j Hj. apply sum_ext. intros i Hi. rewrite J3 by assumption. reflexivity. }
  rewrite Eg. unfold cell_after. rewrite (cell_dims_1 psi D E dA dB HA HB). cbn [sumcfg]. unfold dim. rewrite HA. cbn [nth].
  rewrite (sum_swap dB dA). rewrite !sum_mul_r. apply sum_ext. intros i Hi. rewrite !sum_mul_r. apply sum_ext. intros j Hj.
  cbn [cells_op]. unfold section. change (cells psi 1) with [iAlA psi; iBlB psi].
  assert (El : chain [iAlA psi; iBlB psi] [i; j] x z = chain [iAlA psi; iB psi] [i; j] x z * rinj (nth z (ilB psi) 0%R)).
  { rewrite (chain2 (iAlA psi) (iBlB psi) i j x z E D), (chain2 (iAlA psi) (iB psi) i j x z E D); try (unfold dim; rewrite ?HAl, ?HBl, ?HB; reflexivity); try exact Hz.
    rewrite sum_mul_r. apply sum_ext. intros c Hc. rewrite HgB by assumption. ring. }
  rewrite El. ring.
Qed.

Lemma apply_even_theta tol Dmax : apply_even svd flag psi U tol Dmax =
  bind (limited_svd svd flag (reshape theta [(D * dA)%nat; (dB * D)%nat]) tol Dmax) (fun '(pA, lA, pB) =>
    if negb (Nat.eqb (length (data pB)) (length lA * dA * D)) then Abort else
    if existsb (fun x => if Req_EM_T x 0 then true else false) (ilB psi) then Abort else
    new_itebd (scale (reshape pA [D; dA; length lA]) 0 (map Rinv (ilB psi))) lA (scale (reshape pB [length lA; dA; D]) 2 (map Rinv (ilB psi))) (ilB psi) false).
Proof.
  unfold apply_even. cbv zeta.
  set (GAB := fold (iAlA psi) (rank (iAlA psi) - 1) (iB psi) 0).
  assert (Hd : dims GAB = [D; dA; dB; D]). { unfold GAB, fold, rank. rewrite HAl, HB. reflexivity. }
  assert (E0 : dim GAB 0 = D /\ dim GAB 1 = dA /\ dim GAB 2 = dB /\ dim GAB 3 = D) by (unfold dim; rewrite Hd; repeat split; reflexivity). destruct E0 as (E0 & E1 & E2 & E3). rewrite E0, E1, E2, E3.
  assert (HUd : (rank U =? 2)%nat && (dim U 0 =? dA * dB)%nat && (dim U 1 =? dA * dB)%nat = true).
  { unfold rank, dim. rewrite (proj1 HU). cbn [nth length]. rewrite !Nat.eqb_refl. reflexivity. }
  rewrite HUd. cbn [negb].
  unfold split_tensor. cbv zeta. unfold dim. cbn [dims reshape nth]. rewrite HlB.
  change (reshape (foldin U (rank U - 1) (reshape GAB [D; (dA * dB)%nat; D]) 1) [D; dA; dB; D]) with (reshape (foldin U (rank U - 1) (reshape (fold (iAlA psi) (rank (iAlA psi) - 1) (iB psi) 0) [D; (dA * dB)%nat; D]) 1) [D; dA; dB; D]).
  match goal with |- context [(rank (scale ?g 0 (ilB psi)) - 1)%nat] => set (G := g) end.
  change (rank (scale G 0 (ilB psi)) - 1)%nat with 3%nat.
  change (scale (scale G 0 (ilB psi)) 3 (ilB psi)) with theta.
  destruct theta_ok as (T1 & T2 & _). unfold wf in T2. rewrite T2, T1.
  replace (nprod [D; dA; dB; D]) with (D * dA * (dB * D))%nat by (cbn [nprod fold_right]; nia). rewrite Nat.eqb_refl. cbn [negb].
  destruct (limited_svd svd flag _ tol Dmax) as [[[pA lA] pB]|]; [|reflexivity]. cbn [bind].
  destruct (negb _); [reflexivity|]. destruct (existsb _ _); reflexivity.
Qed.

Definition rest (psi' : itebd) (N : R) (a b : nat) (is : list nat) : K := cell_after psi (mat U) a b is - rinj N * section psi' 1 a b is.

Lemma cell_norm_frob (f : nat -> nat -> list nat -> K) (g : nat -> nat -> K) :
  (forall a b i j, (a < D)%nat -> (b < D)%nat -> (i < dA)%nat -> (j < dB)%nat -> f a b [i; j] = g (a + D * i)%nat (j + dB * b)%nat) ->
  rinj (cell_norm psi f) = sum (D * dA) (fun x => sum (dB * D) (fun y => kconj (g x y) * g x y)).
Proof.
  intros Hf. unfold cell_norm. rewrite HlB. unfold dim. rewrite HA, HB. cbn [nth].
  rewrite (sum_merge D dA). rewrite (sum_swap dA D). rewrite rinj_rsum. apply sum_ext. intros a Ha. rewrite rinj_rsum.
  transitivity (sum dA (fun i => sum D (fun b => sum dB (fun j => kconj (g (a + D * i)%nat (j + dB * b)%nat) * g (a + D * i)%nat (j + dB * b)%nat)))).
  - rewrite (sum_swap dA D). apply sum_ext. intros b Hb. rewrite rinj_rsum. apply sum_ext. intros i Hi. rewrite rinj_rsum. apply sum_ext. intros j Hj.
    rewrite kmod2_spec, Hf by assumption. reflexivity.
  - apply sum_ext. intros i Hi. rewrite (sum_merge dB D). reflexivity.
Qed.

Lemma apply_even_ok tol Dmax psi' : apply_even svd flag psi U tol Dmax = Ok psi' ->
  dA = dB /\ exists c N, (0 < c)%nat /\ (c <= Nat.min (D * dA) (dB * D))%nat /\ ((0 < Dmax)%Z -> (Z.of_nat c <= Dmax)%Z) /\ (0 < N)%R /\
    dims (iA psi') = [D; dA; c] /\ wf (iA psi') /\ dims (iB psi') = [c; dB; D] /\ wf (iB psi') /\
    length (ilA psi') = c /\ ilB psi' = ilB psi /\ icanon psi' = false /\
    iAlA psi' = scale (iA psi') 2 (ilA psi') /\ iBlB psi' = scale (iB psi') 2 (ilB psi') /\
    (forall k, (k < c)%nat -> (0 <= nth k (ilA psi') 0)%R) /\ tail_weight (ilA psi') 0 = 1%R /\
    (forall k, (k < D)%nat -> nth k (ilB psi) 0%R <> 0%R) /\
    (N * N + cell_norm psi (rest psi' N) = cell_norm psi (cell_after psi (mat U)))%R /\
    ((eff_tol flag tol = 0 \/ 1 <= eff_tol flag tol)%R -> (Dmax <= 0)%Z -> 
      cell_norm psi (rest psi' N) = 0%R /\
      forall a b i j, (a < D)%nat -> (b < D)%nat -> (i < dA)%nat -> (j < dB)%nat -> rest psi' N a b [i; j] = 0) /\
    ((0 < eff_tol flag tol < 1)%R -> (Dmax <= 0)%Z ->
      (cell_norm psi (rest psi' N) <= Rmax (eff_tol flag tol) DBL_EPSILON * cell_norm psi (cell_after psi (mat U)))%R) /\
    (forall X Y : nat -> nat -> nat -> K, (cell_norm psi (rest psi' N) <=
      cell_norm psi (fun a b is => cell_after psi (mat U) a b is - sum c (fun k => X a (nth 0 is 0%nat) k * Y k (nth 1 is 0%nat) b))%K)%R).
Proof.
  rewrite apply_even_theta. destruct theta_ok as (T1 & T2 & T3).
  set (M := reshape theta [(D * dA)%nat; (dB * D)%nat]).
  assert (HM : is_matrix M (D * dA) (dB * D)). { split; [reflexivity|]. apply wf_reshape; [exact T2|]. rewrite T1. cbn [nprod fold_right]. nia. }
  assert (GM : forall a b i j, (a < D)%nat -> (b < D)%nat -> (i < dA)%nat -> (j < dB)%nat -> get M [a + D * i; j + dB * b]%nat = cell_after psi (mat U) a b [i; j]).
  { intros a b i j Ha Hb Hi Hj. rewrite <- T3 by assumption. unfold M. apply get_reshape. rewrite T1. cbn [offset]. nia. }
  assert (Hm : (0 < D * dA)%nat) by nia. assert (Hn : (0 < dB * D)%nat) by nia.
  destruct (zero_dec (D * dA * (dB * D)) (fun x => get M [x mod (D * dA); x / (D * dA)]%nat)) as [Hz|(x & Hx & Hz)].
  { rewrite (limited_svd_zero svd flag Hsvd M (D * dA) (dB * D)); try assumption; [discriminate|].
    intros i j Hi Hj. specialize (Hz (i + D * dA * j)%nat ltac:(nia)). cbv beta in Hz.
    rewrite (Nat.mul_comm (D * dA) j), Nat.mod_add, Nat.div_add, Nat.mod_small, Nat.div_small in Hz by lia. exact Hz. }
  destruct (limited_svd_ok svd flag Hsvd M (D * dA) (dB * D) tol Dmax HM Hm Hn) as (Us & sv & Vs & Es & Hs & H).
  { exists (x mod (D * dA))%nat, (x / (D * dA))%nat. split; [apply Nat.mod_upper_bound; lia|]. split; [|exact Hz]. apply Nat.div_lt_upper_bound; lia. }
  cbv zeta in H. set (c := where_to_truncate flag sv tol Dmax) in *. set (N := norm2_list (firstn c sv)) in *.
  destruct H as ((Hc0 & Hc1) & HN & Hsv0 & HNN & Htot & pA & s & pB & El & HpA & HpB & Hls & Hs' & GA & GB).
  rewrite El. cbn [bind]. rewrite (proj2 HpB), (proj1 HpB), Hls. cbn [nprod fold_right].
  destruct (Nat.eqb_spec (c * (dB * D * 1)) (c * dA * D)) as [Ed|Ed]; [|discriminate]. cbn [negb].
  assert (EdAB : dA = dB) by nia.
  destruct (existsb _ (ilB psi)) eqn:Ex; [discriminate|].
  assert (HlBn : forall k, (k < D)%nat -> nth k (ilB psi) 0%R <> 0%R).
  { intros k Hk E0. assert (Hin : existsb (fun x => if Req_EM_T x 0 then true else false) (ilB psi) = true).
    { apply existsb_exists. exists (nth k (ilB psi) 0%R). split; [apply nth_In; lia|]. destruct (Req_EM_T _ 0); [reflexivity|congruence]. }
    congruence. }
  set (A' := scale (reshape pA [D; dA; c]) 0 (map Rinv (ilB psi))). set (B' := scale (reshape pB [c; dA; D]) 2 (map Rinv (ilB psi))).
  unfold new_itebd. cbv zeta.
  match goal with |- (if ?t then _ else _) = _ -> _ => destruct t; [|discriminate] end.
  intros Hok. apply Ok_inj' in Hok. symmetry in Hok.
  assert (EA : iA psi' = A') by (rewrite Hok; reflexivity). assert (EB : iB psi' = B') by (rewrite Hok; reflexivity).
  assert (ElA : ilA psi' = s) by (rewrite Hok; reflexivity). assert (ElB : ilB psi' = ilB psi) by (rewrite Hok; reflexivity).
  assert (EAl : iAlA psi' = scale A' 2 s) by (rewrite Hok; reflexivity). assert (EBl : iBlB psi' = scale B' 2 (ilB psi)) by (rewrite Hok; reflexivity).
  assert (Hsec : forall a b i j, (a < D)%nat -> (b < D)%nat -> (i < dA)%nat -> (j < dB)%nat ->
    section psi' 1 a b [i; j] = sum c (fun k => get Us [a + D * i; k]%nat * rinj (nth k sv 0 / N)%R * get Vs [k; j + dB * b]%nat)).
  { intros a b i j Ha Hb Hi Hj. unfold section. change (cells psi' 1) with [iAlA psi'; iBlB psi']. rewrite ElB.
    rewrite (chain2 (iAlA psi') (iBlB psi') i j a b c D); [|rewrite EAl; reflexivity|rewrite EBl; reflexivity|exact Hb].
    rewrite sum_mul_l. apply sum_ext. intros k Hk. rewrite EAl, EBl.
    rewrite !get_scale by (cbn; apply in_range_3; first [assumption|lia]). unfold A', B'.
    rewrite !get_scale by (cbn; apply in_range_3; first [assumption|lia]). cbn [nth].
    rewrite (get_unjoin_left pA D dA c) by (first [exact (proj1 HpA)|assumption]).
    rewrite (get_unjoin_right pB c dA D) by (first [assumption|rewrite EdAB; exact (proj1 HpB)|lia]).
    rewrite GA, GB by (first [assumption|rewrite ?EdAB; nia]).
    rewrite !nth_map_R by lia. rewrite Hs' by exact Hk. rewrite <- EdAB.
    assert (Ea : rinj (nth a (ilB psi) 0%R) * rinj (/ nth a (ilB psi) 0)%R = 1) by (rewrite <- rinj_mul, Rinv_r by (apply HlBn; exact Ha); apply rinj_1).
    assert (Eb : rinj (nth b (ilB psi) 0%R) * rinj (/ nth b (ilB psi) 0)%R = 1) by (rewrite <- rinj_mul, Rinv_r by (apply HlBn; exact Hb); apply rinj_1).
    transitivity ((rinj (nth a (ilB psi) 0%R) * rinj (/ nth a (ilB psi) 0)%R) * (rinj (nth b (ilB psi) 0%R) * rinj (/ nth b (ilB psi) 0)%R) *
      (get Us [(a + D * i)%nat; k] * rinj (nth k sv 0 / N)%R * get Vs [k; (j + dA * b)%nat])); [ring|rewrite Ea, Eb; ring]. }
  assert (Hrest : forall a b i j, (a < D)%nat -> (b < D)%nat -> (i < dA)%nat -> (j < dB)%nat ->
    rest psi' N a b [i; j] = dropped Us sv Vs c (a + D * i)%nat (j + dB * b)%nat).
  { intros a b i j Ha Hb Hi Hj. unfold rest. rewrite Hsec by assumption. rewrite <- GM by assumption.
    rewrite (limited_sum (D * dA) (dB * D) M Us sv Vs c N) by (first [assumption|nia]). ring. }
  assert (HW : cell_norm psi (rest psi' N) = tail_weight sv c).
  { apply rinj_inj. rewrite (cell_norm_frob _ (dropped Us sv Vs c) Hrest). apply (dropped_weight _ _ M); assumption. }
  assert (HT : cell_norm psi (cell_after psi (mat U)) = frob2 M).
  { apply rinj_inj. rewrite (cell_norm_frob _ (fun x y => get M [x; y])) by (intros; symmetry; apply GM; assumption).
    rewrite (frob2_2 M _ _ (proj1 HM) (proj2 HM)). reflexivity. }
  split; [exact EdAB|]. exists c, N. split; [exact Hc0|]. split; [destruct Hs as (_ & Hs & _); lia|].
  split. { intros HDm. pose proof (wtt_le flag sv tol Dmax) as Hl. fold c in Hl. unfold eff_max in Hl.
    destruct (Z.leb_spec Dmax 0), (Z.ltb_spec (Z.of_nat (length sv)) Dmax); cbn in Hl; lia. }
  split; [exact HN|]. rewrite EA, EB, ElA. split; [reflexivity|]. split; [apply wf_mk|]. split; [cbn; rewrite <- EdAB; reflexivity|]. split; [apply wf_mk|].
  split; [exact Hls|]. split; [exact ElB|]. split; [rewrite Hok; reflexivity|]. split; [exact EAl|]. split; [rewrite ElB; exact EBl|].
  split. { intros k Hk. rewrite Hs' by exact Hk. destruct Hs as (_ & _ & _ & _ & Hp & _). apply Rmult_le_pos; [apply Hp; lia|]. left. apply Rinv_0_lt_compat. exact HN. }
  split. { assert (Es' : s = map (fun x => (x / N)%R) (firstn c sv)).
      { apply (nth_ext _ _ 0%R 0%R); [rewrite map_length, firstn_length_le by exact Hc1; exact Hls|]. intros k Hk. rewrite Hls in Hk.
        rewrite Hs' by exact Hk. rewrite nth_map_R by (rewrite firstn_length_le by exact Hc1; exact Hk). rewrite nth_firstn_lt' by exact Hk. reflexivity. }
      rewrite Es'. assert (Hg : forall l, (tail_weight (map (fun x => (x / N)%R) l) 0 = tail_weight l 0 / (N * N))%R).
      { induction l as [|y l IH]; unfold tail_weight in *; cbn [skipn map fold_right] in *; [field; lra|]. rewrite IH. field. lra. }
      rewrite Hg. rewrite <- norm2_list_sq. fold N. field. lra. }
  split; [exact HlBn|]. rewrite HW, HT. split; [exact HNN|].
  split; [|split].
  - intros Ht HDm. assert (Hz0 : forall k, (c <= k)%nat -> nth k sv 0%R = 0%R).
    { intros k Hk. apply (wtt_exact0 flag sv tol Ht). unfold c in Hk. rewrite wtt_unfold in Hk. rewrite wtt_unfold.
      replace (eff_max sv 0) with (eff_max sv Dmax); [exact Hk|]. unfold eff_max. destruct (Z.leb_spec Dmax 0); [reflexivity|lia]. }
    split; [apply Properties_Decomp.tail_zero; intros; apply Hz0; assumption|]. intros. rewrite Hrest by assumption. apply dropped_zero. exact Hz0.
  - intros [Ht1 Ht2] HDm. rewrite <- Htot. pose proof (wtt_bound0 flag sv tol Ht1 Ht2) as Hb.
    replace (where_to_truncate flag sv tol 0) with c in Hb; [exact Hb|].
    unfold c. rewrite !wtt_unfold. replace (eff_max sv 0) with (eff_max sv Dmax); [reflexivity|]. unfold eff_max. destruct (Z.leb_spec Dmax 0); [reflexivity|lia].
  - intros X Y. set (X' := fun x k : nat => X (x mod D)%nat (x / D)%nat k). set (Y' := fun k y : nat => Y k (y mod dB)%nat (y / dB)%nat).
    pose proof (eckart_young svd Hsvd (D * dA)%nat (dB * D)%nat M Us sv Vs c X' Y' Hs Hm Hc0) as HEY.
    match goal with |- (_ <= ?r)%R => replace r with (mweight (D * dA) (dB * D) (fun i j => get M [i; j] - sum c (fun k => X' i k * Y' k j))); [exact HEY|] end.
    symmetry. apply rinj_inj. rewrite rinj_mweight. apply cell_norm_frob. intros a b i j Ha Hb Hi Hj. rewrite GM by assumption. f_equal. apply sum_ext. intros k Hk.
    unfold X', Y'. cbn [nth]. rewrite (Nat.mul_comm D i), (Nat.mul_comm dB b), !Nat.mod_add, !Nat.div_add, !Nat.mod_small, !Nat.div_small by lia. reflexivity.
Qed.

(** When the operator can be applied *)
Lemma apply_even_defined tol Dmax : dA = dB -> length (ilA psi) = E -> (forall k, (k < D)%nat -> nth k (ilB psi) 0%R <> 0%R) ->
  (exists a b i j, (a < D)%nat /\ (b < D)%nat /\ (i < dA)%nat /\ (j < dB)%nat /\ cell_after psi (mat U) a b [i; j] <> 0) ->
  exists psi', apply_even svd flag psi U tol Dmax = Ok psi'.
Proof.
  intros Ed HlA HlBn (a & b & i & j & Ha & Hb & Hi & Hj & Hne). rewrite apply_even_theta. destruct theta_ok as (T1 & T2 & T3).
  set (M := reshape theta [(D * dA)%nat; (dB * D)%nat]).
  assert (HM : is_matrix M (D * dA) (dB * D)). { split; [reflexivity|]. apply wf_reshape; [exact T2|]. rewrite T1. cbn [nprod fold_right]. nia. }
  destruct (limited_svd_ok svd flag Hsvd M (D * dA) (dB * D) tol Dmax HM ltac:(nia) ltac:(nia)) as (Us & sv & Vs & Es & Hs & H).
  { exists (a + D * i)%nat, (j + dB * b)%nat. split; [nia|]. split; [nia|]. intros E0. apply Hne. rewrite <- T3 by assumption. rewrite <- E0. symmetry. unfold M. apply get_reshape. rewrite T1. cbn [offset]. nia. }
  cbv zeta in H. set (c := where_to_truncate flag sv tol Dmax) in *.
  destruct H as ((Hc0 & Hc1) & HN & Hsv0 & HNN & Htot & pA & s & pB & El & HpA & HpB & Hls & _).
  rewrite El. cbn [bind]. rewrite (proj2 HpB), (proj1 HpB), Hls. cbn [nprod fold_right]. rewrite Ed.
  replace (c * (dB * D * 1))%nat with (c * dB * D)%nat by nia. rewrite Nat.eqb_refl. cbn [negb].
  destruct (existsb _ (ilB psi)) eqn:Ex.
  { exfalso. apply existsb_exists in Ex. destruct Ex as (x & Hin & Hx). destruct (In_nth _ _ 0%R Hin) as (k & Hk & <-). apply (HlBn k); [lia|]. destruct (Req_EM_T _ 0); [assumption|discriminate]. }
  unfold new_itebd, rank, dim. cbn [dims scale mk reshape nth length]. rewrite HlB, Hls, !Nat.eqb_refl. cbn [andb]. eexists. reflexivity.
Qed.

End One.
End Apply.
