(** * Expected values in infinite states: the direct method *)
From Coq Require Import Reals Lra Bool List Arith ZArith Lia Ring.
From Verif Require Import Scalar ScalarFacts RScal Tensor TensorFacts Spec SparseSpec MpsModel MpsFacts EnvFacts ExpectedFacts CanonModel CanonFacts CanonSweep DecompModel SplitFacts LFormFacts LFormValue TrotterRun ITebdModel ITebdSpec ITebdFacts.
Import ListNotations.
Local Open Scope K_scope.

Section Slow.
Context {RS : RScal}.
Add Ring Kring : k_ring.

(** [Rm] is c times the transfer matrix of the sites [p] *)
Definition emat (Rm : tensor) (l r : nat) (p : mps) (ops : list (option tensor)) (c : K) : Prop :=
  dims Rm = [l * l; r * r]%nat /\ wf Rm /\
  forall x y z w, (x < l)%nat -> (y < l)%nat -> (z < r)%nat -> (w < r)%nat ->
    get Rm [(y + l * x)%nat; (w + r * z)%nat] = c * TM p p ops x y z w.

Lemma build_E_ok A1 A2 a d b : dims A1 = [a; d; b] -> dims A2 = [a; d; b] ->
  dims (build_E_matrix A1 A2) = [a * a; b * b]%nat /\ wf (build_E_matrix A1 A2) /\
  forall x y z w, (x < a)%nat -> (y < a)%nat -> (z < b)%nat -> (w < b)%nat ->
    get (build_E_matrix A1 A2) [(y + a * x)%nat; (w + b * z)%nat] = sum d (fun i => get A1 [y; i; w] * kconj (get A2 [x; i; z])).
Proof.
  intros H1 H2. unfold build_E_matrix. set (Rm := fold A1 1 (tconj A2) 1).
  assert (Hd : dims Rm = [a; b; a; b]) by (unfold Rm, fold; cbn [tconj dims]; rewrite H1, H2; reflexivity).
  assert (Hg : forall y w x z, (y < a)%nat -> (w < b)%nat -> (x < a)%nat -> (z < b)%nat -> get Rm [y; w; x; z] = sum d (fun i => get A1 [y; i; w] * kconj (get A2 [x; i; z]))).
  { intros y w x z Hy Hw Hx Hz. unfold Rm, fold, rank, dim. cbn [tconj dims]. rewrite H1, H2. cbn -[mk sum get]. rewrite get_mk by (apply in_range_4; assumption).
    cbn -[sum get]. apply sum_ext. intros i Hi. rewrite get_tconj. reflexivity. }
  cbv zeta. unfold dim. rewrite Hd. cbn [nth]. split; [reflexivity|].
  split; [apply wf_reshape; [apply wf_mk|unfold permute; rewrite Hd; cbn; nia]|]. intros x y z w Hx Hy Hz Hw.
  transitivity (get (permute Rm 1 2) [y; x; w; z]).
  { unfold get at 1. unfold get at 1. cbn [dims reshape data]. unfold permute at 2. cbn [dims mk]. rewrite Hd. cbn. f_equal. nia. }
  unfold permute. rewrite Hd. rewrite get_mk by (cbn; apply in_range_4; assumption). cbn -[sum get]. apply Hg; assumption.
Qed.

Lemma emat_id A l d r : dims A = [l; d; r] -> emat (build_E_matrix A A) l r [A] [None] 1.
Proof.
  intros HA. destruct (build_E_ok A A l d r HA HA) as (Hd & Hww & Hg). split; [exact Hd|]. split; [exact Hww|]. intros x y z w Hx Hy Hz Hw. rewrite Hg by assumption.
  rewrite (TM_single A A None x y z w _ _ _ _ _ _ HA HA Hz Hw). unfold E1, dim. rewrite HA. cbn [nth opel].
  transitivity (sum d (fun i => sum d (fun j => (kconj (get A [x; i; z]) * get A [y; j; w]) * delta i j))).
  - apply sum_ext. intros i Hi. rewrite (sum_delta_r' d i (fun j => kconj (get A [x; i; z]) * get A [y; j; w])) by exact Hi. ring.
  - match goal with |- _ = 1 * ?s => transitivity s; [|ring] end. apply sum_ext. intros i Hi. apply sum_ext. intros j Hj. ring.
Qed.

Lemma emat_op A Op l d r : dims A = [l; d; r] -> is_matrix Op d d -> emat (build_E_matrix (foldin Op (rank Op - 1) A 1) A) l r [A] [Some Op] 1.
Proof.
  intros HA HO. pose proof (dims_foldin_mid Op A l d r HO HA) as HF.
  destruct (build_E_ok _ A l d r HF HA) as (Hd & Hww & Hg). split; [exact Hd|]. split; [exact Hww|]. intros x y z w Hx Hy Hz Hw. rewrite Hg by assumption.
  rewrite (TM_single A A (Some Op) x y z w _ _ _ _ _ _ HA HA Hz Hw). unfold E1, dim. rewrite HA. cbn [nth opel].
  match goal with |- _ = 1 * ?s => transitivity s; [|ring] end. apply sum_ext. intros i Hi. rewrite (get_foldin_mid Op A l d r y i w HO HA) by assumption.
  rewrite sum_mul_r. apply sum_ext. intros j Hj. unfold mat; ring.
Qed.

Lemma emat_mmult R1 R2 l m r p1 o1 p2 o2 c1 c2 : linked l p1 m -> linked m p2 r -> ops_ok p1 p1 o1 ->
  emat R1 l m p1 o1 c1 -> emat R2 m r p2 o2 c2 -> emat (mmult R1 R2) l r (p1 ++ p2) (o1 ++ o2) (c1 * c2).
Proof.
  intros L1 L2 Ho (D1 & W1 & G1) (D2 & W2 & G2). split.
  { unfold mmult, fold, rank. rewrite D1, D2. reflexivity. }
  split; [apply wf_mk|].
  intros x y z w Hx Hy Hz Hw. rewrite (get_mmult R1 R2 (l * l) (m * m) (r * r)) by (assumption || nia).
  rewrite sum_merge. rewrite (TM_app l l p1 p1 o1 m m p2 p2 o2 r r x y z w L1 L1 L2 L2 Ho Hx Hy). rewrite sum_mul_l. apply sum_ext. intros c Hc.
  rewrite sum_mul_l. apply sum_ext. intros d Hd. rewrite G1, G2 by assumption. ring.
Qed.

Lemma emat_tdiv Rm l r p ops c n : emat Rm l r p ops c -> emat (tdiv Rm n) l r p ops (rinj (/ n) * c).
Proof.
  intros (D & W & G). split; [exact D|]. split; [apply wf_tscale; exact W|]. intros x y z w Hx Hy Hz Hw. unfold tdiv.
  rewrite get_tscale by (auto; rewrite D; apply in_range_2; nia). rewrite G by assumption. ring.
Qed.

Lemma emat_trace Rm l p ops c : emat Rm l l p ops c -> p <> [] -> linked l p l ->
  mtrace Rm = c * sumcfg (pdims p) (fun is => sumcfg (pdims p) (fun js => kconj (amp p is) * prodop ops is js * amp p js)).
Proof.
  intros (D & _ & G) Hp Hl. rewrite <- (trace_TM p p ops l l Hp Hp Hl Hl). unfold mtrace, dim. rewrite D. cbn [nth]. rewrite sum_merge, sum_mul_l.
  apply sum_ext. intros x Hx. rewrite sum_mul_l. apply sum_ext. intros y Hy. rewrite G by assumption. reflexivity.
Qed.

Lemma ops_ok_none p : ops_ok p p (nn (length p)).
Proof. induction p as [|A p IH]; [exact I|]. cbn [length nn repeat ops_ok]. split; [reflexivity|exact IH]. Qed.

Lemma linked_pow l p : linked l p l -> forall n, linked l (concat (repeat p n)) l.
Proof. intros H. induction n as [|n IH]; [reflexivity|]. cbn [repeat concat]. apply linked_app. exists l. split; assumption. Qed.

Lemma power_ok n : forall Rm l p c R', linked l p l -> emat Rm l l p (nn (length p)) c -> power_loop n Rm = Ok R' ->
  exists c', emat R' l l (concat (repeat p (2 ^ n))) (nn (length (concat (repeat p (2 ^ n))))) c'.
Proof.
  induction n as [|n IH]; intros Rm l p c R' Hl He H.
  - cbn [power_loop] in H. apply Ok_inj' in H. subst R'. exists c. cbn [Nat.pow repeat concat]. rewrite app_nil_r. exact He.
  - cbn [power_loop] in H. cbv zeta in H. destruct (Req_EM_T (frob (mmult Rm Rm)) 0); [discriminate|].
    assert (H2 : linked l (p ++ p) l) by (apply linked_app; exists l; split; assumption).
    assert (E2 : emat (tdiv (mmult Rm Rm) (frob (mmult Rm Rm))) l l (p ++ p) (nn (length (p ++ p))) (rinj (/ frob (mmult Rm Rm)) * (c * c))).
    { apply emat_tdiv. rewrite app_length, nn_app. apply (emat_mmult Rm Rm l l l); auto. apply ops_ok_none. }
    destruct (IH _ _ _ _ _ H2 E2 H) as [c' Hc']. exists c'.
    replace (concat (repeat p (2 ^ S n))) with (concat (repeat (p ++ p) (2 ^ n))); [exact Hc'|].
    cbn [Nat.pow]. generalize (2 ^ n)%nat. clear. induction n as [|n IH]; [reflexivity|].
    cbn [repeat concat]. rewrite IH. replace (2 * S n)%nat with (S (S (2 * n))) by lia. cbn [repeat concat]. rewrite <- app_assoc. reflexivity.
Qed.

Definition tot (p : mps) (ops : list (option tensor)) : K :=
  sumcfg (pdims p) (fun is => sumcfg (pdims p) (fun js => kconj (amp p is) * prodop ops is js * amp p js)).

Lemma fold_kmod2_zero (l : list K) : fold_right (fun x r => (kmod2 x + r)%R) 0%R l = 0%R -> forall x, In x l -> x = 0.
Proof.
  assert (Hp : forall l : list K, (0 <= fold_right (fun x r => (kmod2 x + r)%R) 0%R l)%R).
  { induction l0 as [|y l0 IH]; cbn [fold_right]; [lra|]. pose proof (kmod2_nonneg y). lra. }
  induction l as [|y l IH]; intros H x Hx; [contradiction|]. cbn [fold_right] in H. pose proof (kmod2_nonneg y). pose proof (Hp l).
  destruct Hx as [->|Hx]; [apply kmod2_zero; lra|apply IH; [lra|exact Hx]].
Qed.

Lemma frob_zero t is : frob t = 0%R -> get t is = 0.
Proof.
  unfold frob. intros H. apply sqrt_eq_0 in H.
  - unfold get. destruct (Nat.lt_ge_cases (offset (dims t) is) (length (data t))) as [Hl|Hl].
    + apply (fold_kmod2_zero _ H). apply nth_In. exact Hl.
    + apply nth_overflow. exact Hl.
  - clear H. induction (data t) as [|y l IH]; cbn [fold_right]; [lra|]. pose proof (kmod2_nonneg y). lra.
Qed.

Lemma emat_zero Rm l m p q c : emat Rm l m p (nn (length p)) c -> linked l p m -> linked m q l -> p <> [] -> c <> 0 -> frob Rm = 0%R ->
  tot (p ++ q) (nn (length p + length q)) = 0.
Proof.
  intros (Hd & Hw & Hg) L1 L2 Hp Hc Hz. unfold tot.
  assert (L : linked l (p ++ q) l) by (apply linked_app; exists m; split; assumption).
  rewrite <- (trace_TM (p ++ q) (p ++ q) (nn (length p + length q)) l l); auto.
  2,3: (intros H; apply app_eq_nil in H; tauto).
  apply sum_zero. intros x Hx. apply sum_zero. intros y Hy. rewrite nn_app.
  rewrite (TM_app l l p p (nn (length p)) m m q q (nn (length q)) l l x y x y L1 L1 L2 L2 (ops_ok_none p) Hx Hy).
  apply sum_zero. intros z Hz'. apply sum_zero. intros w Hw'.
  assert (HT : TM p p (nn (length p)) x y z w = 0).
  { specialize (Hg x y z w Hx Hy Hz' Hw'). rewrite (frob_zero _ _ Hz) in Hg.
    transitivity (kinv c * c * TM p p (nn (length p)) x y z w); [rewrite kinv_l by exact Hc; ring|].
    transitivity (kinv c * (c * TM p p (nn (length p)) x y z w)); [ring|]. rewrite <- Hg. ring. }
  rewrite HT. ring.
Qed.

Lemma concat_double (p : mps) n : concat (repeat (p ++ p) n) = concat (repeat p (2 * n)).
Proof.
  induction n as [|n IH]; [reflexivity|].
  cbn [repeat concat]. rewrite IH. replace (2 * S n)%nat with (S (S (2 * n))) by lia. cbn [repeat concat]. rewrite <- app_assoc. reflexivity.
Qed.

Lemma power_total n : forall Rm l p c q, linked l p l -> linked l q l -> p <> [] -> c <> 0 -> emat Rm l l p (nn (length p)) c ->
  tot (concat (repeat p (2 ^ n)) ++ q) (nn (length (concat (repeat p (2 ^ n))) + length q)) <> 0 ->
  exists R' c', power_loop n Rm = Ok R' /\ c' <> 0 /\ emat R' l l (concat (repeat p (2 ^ n))) (nn (length (concat (repeat p (2 ^ n))))) c'.
Proof.
  induction n as [|n IH]; intros Rm l p c q Hl Hq Hp Hc He Ht.
  - exists Rm, c. split; [reflexivity|]. split; [exact Hc|]. cbn [Nat.pow repeat concat]. rewrite app_nil_r. exact He.
  - cbn [power_loop]. cbv zeta.
    assert (H2 : linked l (p ++ p) l) by (apply linked_app; exists l; split; assumption).
    assert (E2 : emat (mmult Rm Rm) l l (p ++ p) (nn (length (p ++ p))) (c * c)).
    { rewrite app_length, nn_app. apply (emat_mmult Rm Rm l l l); auto. apply ops_ok_none. }
    assert (Hp2 : p ++ p <> []) by (intros H; apply app_eq_nil in H; tauto).
    assert (Hcc : c * c <> 0) by (apply kmul_nonzero; assumption).
    cbn [Nat.pow] in *. rewrite <- concat_double in *.
    destruct (Req_EM_T (frob (mmult Rm Rm)) 0) as [Hz|Hn].
    { exfalso. apply Ht. assert (Hpos : exists m, (2 ^ n = S m)%nat) by (exists (2 ^ n - 1)%nat; pose proof (Nat.pow_nonzero 2 n ltac:(lia)); lia).
      destruct Hpos as [m ->]. cbn [repeat concat]. rewrite <- app_assoc.
      rewrite (app_length (p ++ p)), <- Nat.add_assoc, <- (app_length _ q).
      apply (emat_zero (mmult Rm Rm) l l (p ++ p) _ (c * c)); auto.
      apply linked_app. exists l. split; [apply linked_pow; exact H2|exact Hq]. }
    apply (IH _ l (p ++ p) (rinj (/ frob (mmult Rm Rm)) * (c * c)) q H2 Hq Hp2); [|apply emat_tdiv; exact E2|exact Ht].
    apply kmul_nonzero; [|exact Hcc]. intros H. rewrite <- rinj_0 in H. apply rinj_inj in H. revert H. apply Rinv_neq_0_compat. exact Hn.
Qed.

Lemma slow_pos : (0 < slow_cells)%nat.
Proof. unfold slow_cells. pose proof (Nat.pow_nonzero 2 10 ltac:(discriminate)). revert H. generalize (2 ^ 10)%nat. intros; lia. Qed.

Lemma infinite_ok Rm l p c R' : linked l p l -> emat Rm l l p (nn (length p)) c -> infinite_power Rm = Ok R' ->
  exists c', emat R' l l (concat (repeat p slow_cells)) (nn (length (concat (repeat p slow_cells)))) c'.
Proof. unfold infinite_power, slow_cells. generalize 10%nat. intros n. apply power_ok. Qed.

Lemma infinite_total Rm l p c q : linked l p l -> linked l q l -> p <> [] -> c <> 0 -> emat Rm l l p (nn (length p)) c ->
  tot (concat (repeat p slow_cells) ++ q) (nn (length (concat (repeat p slow_cells)) + length q)) <> 0 ->
  exists R' c', infinite_power Rm = Ok R' /\ c' <> 0 /\ emat R' l l (concat (repeat p slow_cells)) (nn (length (concat (repeat p slow_cells)))) c'.
Proof. unfold infinite_power, slow_cells. generalize 10%nat. intros n. apply power_total. Qed.

Section Chain.
Variables (psi : itebd) (D E dA dB : nat).
Hypothesis HD : (0 < D)%nat.
Hypothesis HE : (0 < E)%nat.
Hypothesis HdA : (0 < dA)%nat.
Hypothesis HdB : (0 < dB)%nat.
Hypothesis HA : dims (iAlA psi) = [D; dA; E].
Hypothesis HAw : wf (iAlA psi).
Hypothesis HB : dims (iBlB psi) = [E; dB; D].
Hypothesis HBw : wf (iBlB psi).

Definition opz (Op1 : tensor) (i : Z) (Opm Op2 : tensor) (j z : Z) : tensor :=
  match op_at Op1 i Opm Op2 j z with Ok t => t | Abort => empty end.

Lemma ops_ok_app p q o1 o2 : ops_ok p p o1 -> ops_ok q q o2 -> ops_ok (p ++ q) (p ++ q) (o1 ++ o2).
Proof.
  revert o1. induction p as [|A p IH]; intros [|o o1] H1 H2; cbn in H1 |- *; try contradiction; [exact H2|].
  destruct H1 as [H1 H3]. split; [exact H1|]. apply IH; assumption.
Qed.

Lemma slow_loop_ok Op1 i Opm Op2 j n : forall k q p o1 R0 R1 c x,
  Z.odd k = Nat.odd q -> bond D E (q + n) = D -> p <> [] ->
  linked D p (bond D E q) -> ops_ok p p o1 -> emat R0 D (bond D E q) p (nn (length p)) c -> emat R1 D (bond D E q) p o1 c ->
  (forall t, (t < n)%nat -> op_fits (opz Op1 i Opm Op2 j (k + Z.of_nat t)) (phys dA dB (q + t))) ->
  slow_loop n k Op1 i Opm Op2 j (iAlA psi) (iBlB psi) (build_E_matrix (iAlA psi) (iAlA psi)) (build_E_matrix (iBlB psi) (iBlB psi)) R0 R1 = Ok x ->
  tot (p ++ sites psi q n) (nn (length p + n)) <> 0 /\
  x * tot (p ++ sites psi q n) (nn (length p + n)) =
  tot (p ++ sites psi q n) (o1 ++ map (fun t => oo (opz Op1 i Opm Op2 j (k + Z.of_nat t))) (seq 0 n)).
Proof.
  induction n as [|n IH]; intros k q p o1 R0 R1 c x Hk Hb Hp Hl Ho E0 E1' Hf Hx.
  - cbn [slow_loop] in Hx. rewrite Nat.add_0_r in Hb. rewrite Hb in *. cbn [seq map sites]. rewrite !app_nil_r, Nat.add_0_r.
    rewrite (emat_trace _ _ _ _ _ E0 Hp Hl), (emat_trace _ _ _ _ _ E1' Hp Hl) in Hx. apply kdiv_inv in Hx. destruct Hx as [Hn Hx].
    fold (tot p (nn (length p))) (tot p o1) in *. split.
    + intros H. apply Hn. rewrite H. ring.
    + assert (Hc : c <> 0) by (intros H; apply Hn; rewrite H; ring).
      transitivity (kinv c * c * (x * tot p (nn (length p)))); [rewrite kinv_l by exact Hc; ring|].
      transitivity (kinv c * (x * (c * tot p (nn (length p))))); [ring|]. rewrite Hx.
      transitivity (kinv c * c * tot p o1); [ring|]. rewrite kinv_l by exact Hc. ring.
  - cbn [slow_loop] in Hx. destruct (op_at Op1 i Opm Op2 j k) as [Op|] eqn:EOp; [|discriminate]. cbn [bind] in Hx. cbv zeta in Hx.
    set (AB := if Z.odd k then iBlB psi else iAlA psi) in *.
    set (EE := if Z.odd k then build_E_matrix (iBlB psi) (iBlB psi) else build_E_matrix (iAlA psi) (iAlA psi)) in *.
    assert (HAB : AB = site psi q) by (unfold AB, site, combined_matrix; rewrite odd_of_nat, <- Hk; reflexivity).
    assert (HEE : EE = build_E_matrix (site psi q) (site psi q)) by (rewrite <- HAB; unfold EE, AB; destruct (Z.odd k); reflexivity).
    assert (Hso : dims (site psi q) = [bond D E q; phys dA dB q; bond D E (S q)] /\ wf (site psi q) /\ (0 < phys dA dB q)%nat /\ (0 < bond D E (S q))%nat).
    { unfold site, combined_matrix, bond, phys. rewrite odd_of_nat, odd_S. destruct (Nat.odd q); cbn [negb]; auto. }
    destruct Hso as (Hsd & Hsw & Hsp & Hsb).
    assert (L1 : linked (bond D E q) [site psi q] (bond D E (S q))) by (exists (phys dA dB q), (bond D E (S q)); repeat split; auto).
    pose proof (emat_id _ _ _ _ Hsd) as EI. rewrite <- HEE in EI.
    set (R1' := if is_empty Op then mmult R1 EE else mmult R1 (build_E_matrix (foldin Op (rank Op - 1) AB 1) AB)) in *.
    assert (Hf0 : op_fits Op (phys dA dB q)).
    { specialize (Hf 0%nat ltac:(lia)). rewrite Z.add_0_r, Nat.add_0_r in Hf. unfold opz in Hf. rewrite EOp in Hf. exact Hf. }
    assert (ER1 : emat R1' D (bond D E (S q)) (p ++ [site psi q]) (o1 ++ [oo Op]) (c * 1)).
    { unfold R1', oo. destruct (is_empty Op) eqn:EO.
      - apply (emat_mmult R1 EE D (bond D E q) (bond D E (S q))); auto.
      - destruct Hf0 as [H|H]; [congruence|]. apply (emat_mmult R1 _ D (bond D E q) (bond D E (S q))); auto. rewrite HAB. apply emat_op with (d := phys dA dB q); auto. }
    assert (ER0 : emat (mmult R0 EE) D (bond D E (S q)) (p ++ [site psi q]) (nn (length (p ++ [site psi q]))) (c * 1)).
    { rewrite app_length, nn_app. apply (emat_mmult R0 EE D (bond D E q) (bond D E (S q))); auto. apply ops_ok_none. }
    destruct (Req_EM_T (frob (mmult R0 EE)) 0) as [|Hn0]; [discriminate|].
    assert (Esites : p ++ sites psi q (S n) = (p ++ [site psi q]) ++ sites psi (S q) n) by (rewrite <- app_assoc; reflexivity).
    assert (Elen : (length p + S n = length (p ++ [site psi q]) + n)%nat) by (rewrite app_length; cbn [length]; lia).
    assert (Eops : o1 ++ map (fun t => oo (opz Op1 i Opm Op2 j (k + Z.of_nat t))) (seq 0 (S n)) =
      (o1 ++ [oo Op]) ++ map (fun t => oo (opz Op1 i Opm Op2 j (k + 1 + Z.of_nat t))) (seq 0 n)).
    { rewrite <- app_assoc. f_equal. cbn [seq map app]. f_equal.
      - rewrite Z.add_0_r. unfold opz. rewrite EOp. reflexivity.
      - rewrite <- seq_shift, map_map. apply map_ext. intros t. f_equal. f_equal. lia. }
    rewrite Esites, Elen, Eops.
    apply (IH (k + 1)%Z (S q) (p ++ [site psi q]) (o1 ++ [oo Op]) (tdiv (mmult R0 EE) (frob (mmult R0 EE))) (tdiv R1' (frob (mmult R0 EE))) (rinj (/ frob (mmult R0 EE)) * (c * 1)) x).
    + rewrite Z.odd_add, Hk, odd_S. destruct (Nat.odd q); reflexivity.
    + replace (S q + n)%nat with (q + S n)%nat by lia. exact Hb.
    + intros H. apply app_eq_nil in H. destruct H as [_ H]. discriminate H.
    + apply linked_app. exists (bond D E q). split; assumption.
    + apply ops_ok_app; [exact Ho|]. split; [|exact I]. unfold dim. rewrite Hsd. apply op_ok_oo'. exact Hf0.
    + apply emat_tdiv. exact ER0.
    + apply emat_tdiv. exact ER1.
    + intros t Ht. specialize (Hf (S t) ltac:(lia)). replace (k + 1 + Z.of_nat t)%Z with (k + Z.of_nat (S t))%Z by lia.
      replace (S q + t)%nat with (q + S t)%nat by lia. exact Hf.
    + exact Hx.
Qed.

Lemma slow_loop_total Op1 i Opm Op2 j n : forall k q p R0 R1 c,
  Z.odd k = Nat.odd q -> bond D E (q + n) = D -> p <> [] -> c <> 0 ->
  linked D p (bond D E q) -> emat R0 D (bond D E q) p (nn (length p)) c ->
  (i = j -> is_empty Op1 = false /\ is_empty Op2 = false) ->
  tot (p ++ sites psi q n) (nn (length p + n)) <> 0 ->
  exists x, slow_loop n k Op1 i Opm Op2 j (iAlA psi) (iBlB psi) (build_E_matrix (iAlA psi) (iAlA psi)) (build_E_matrix (iBlB psi) (iBlB psi)) R0 R1 = Ok x.
Proof.
  induction n as [|n IH]; intros k q p R0 R1 c Hk Hb Hp Hc Hl E0 Hop Ht.
  - cbn [slow_loop]. rewrite Nat.add_0_r in Hb. rewrite Hb in *. cbn [seq map sites] in Ht. rewrite !app_nil_r, Nat.add_0_r in Ht.
    apply kdiv_ok. rewrite (emat_trace _ _ _ _ _ E0 Hp Hl). apply kmul_nonzero; assumption.
  - cbn [slow_loop]. assert (EOp : exists Op, op_at Op1 i Opm Op2 j k = Ok Op).
    { unfold op_at. destruct ((k <? i) || (j <? k))%Z; [eauto|]. destruct (k =? i)%Z.
      - destruct (Z.eqb_spec i j); [|eauto]. destruct Hop as [H1 H2]; [assumption|]. unfold mmult_op. rewrite H1, H2. cbn [orb]. eauto.
      - destruct (k =? j)%Z; eauto. }
    destruct EOp as [Op EOp]. rewrite EOp. cbn [bind]. cbv zeta.
    set (AB := if Z.odd k then iBlB psi else iAlA psi).
    set (EE := if Z.odd k then build_E_matrix (iBlB psi) (iBlB psi) else build_E_matrix (iAlA psi) (iAlA psi)).
    assert (HAB : AB = site psi q) by (unfold AB, site, combined_matrix; rewrite odd_of_nat, <- Hk; reflexivity).
    assert (HEE : EE = build_E_matrix (site psi q) (site psi q)) by (rewrite <- HAB; unfold EE, AB; destruct (Z.odd k); reflexivity).
    assert (Hso : forall q, dims (site psi q) = [bond D E q; phys dA dB q; bond D E (S q)] /\ wf (site psi q) /\ (0 < phys dA dB q)%nat /\ (0 < bond D E (S q))%nat).
    { intros q'. unfold site, combined_matrix, bond, phys. rewrite odd_of_nat, odd_S. destruct (Nat.odd q'); cbn [negb]; auto. }
    destruct (Hso q) as (Hsd & Hsw & Hsp & Hsb).
    assert (L1 : linked (bond D E q) [site psi q] (bond D E (S q))) by (exists (phys dA dB q), (bond D E (S q)); repeat split; auto).
    pose proof (emat_id _ _ _ _ Hsd) as EI. rewrite <- HEE in EI.
    assert (ER0 : emat (mmult R0 EE) D (bond D E (S q)) (p ++ [site psi q]) (nn (length (p ++ [site psi q]))) (c * 1)).
    { rewrite app_length, nn_app. apply (emat_mmult R0 EE D (bond D E q) (bond D E (S q))); auto. apply ops_ok_none. }
    assert (L2 : linked D (p ++ [site psi q]) (bond D E (S q))) by (apply linked_app; exists (bond D E q); split; assumption).
    assert (Hr : forall n q, linked (bond D E q) (sites psi q n) (bond D E (q + n))).
    { clear IH. induction n0 as [|n' IH]; intros q'; [rewrite Nat.add_0_r; reflexivity|].
      destruct (Hso q') as (Hsd' & Hsw' & Hsp' & Hsb'). unfold sites. cbn [seq map]. exists (phys dA dB q'), (bond D E (S q')). repeat split; auto.
      replace (q' + S n')%nat with (S q' + n')%nat by lia. apply IH. }
    assert (L3 : linked (bond D E (S q)) (sites psi (S q) n) D).
    { rewrite <- Hb at 2. replace (q + S n)%nat with (S q + n)%nat by lia. apply Hr. }
    assert (Esites : p ++ sites psi q (S n) = (p ++ [site psi q]) ++ sites psi (S q) n) by (rewrite <- app_assoc; reflexivity).
    assert (Elen : (length p + S n = length (p ++ [site psi q]) + n)%nat) by (rewrite app_length; cbn [length]; lia).
    rewrite Esites, Elen in Ht.
    assert (Hp' : p ++ [site psi q] <> []) by (intros H; apply app_eq_nil in H; destruct H as [_ H]; discriminate H).
    assert (Hc1 : c * 1 <> 0) by (intros H; apply Hc; rewrite <- H; ring).
    destruct (Req_EM_T (frob (mmult R0 EE)) 0) as [Hz|Hn0].
    { exfalso. apply Ht. replace n with (length (sites psi (S q) n)) at 2 by (unfold sites; rewrite map_length, seq_length; reflexivity).
      exact (emat_zero _ _ _ _ _ _ ER0 L2 L3 Hp' Hc1 Hz). }
    apply (IH (k + 1)%Z (S q) (p ++ [site psi q]) (tdiv (mmult R0 EE) (frob (mmult R0 EE))) _ (rinj (/ frob (mmult R0 EE)) * (c * 1))).
    + rewrite Z.odd_add, Hk, odd_S. destruct (Nat.odd q); reflexivity.
    + replace (S q + n)%nat with (q + S n)%nat by lia. exact Hb.
    + exact Hp'.
    + apply kmul_nonzero; [|exact Hc1]. intros H. rewrite <- rinj_0 in H. apply rinj_inj in H. revert H. apply Rinv_neq_0_compat. exact Hn0.
    + exact L2.
    + apply emat_tdiv. exact ER0.
    + exact Hop.
    + exact Ht.
Qed.
End Chain.
End Slow.
