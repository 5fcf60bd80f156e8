(** * C52: expected values in infinite states, boundary method *)
From Coq Require Import Reals Lra Bool List Arith ZArith Lia Ring.
From Verif Require Import Scalar ScalarFacts RScal Tensor TensorFacts Spec SparseSpec MpsModel MpsFacts EnvFacts ExpectedFacts CanonModel CanonFacts CanonSweep DecompModel SplitFacts QFormFacts LFormFacts LFormValue SimplifySpec SimplifyFacts TrotterRun ITebdModel ITebdSpec ITebdFacts ITebdSlow Properties_ITebd Properties_ITebd2.
Import ListNotations.
Local Open Scope K_scope.

Section C52.
Context {RS : RScal}.
Add Ring Kring : k_ring.

(** [M] is c times the environment of the sites [p] *)
Definition senv (l : nat) (p : mps) (ops : list (option tensor)) (r : nat) (M : tensor) (c : K) : Prop :=
  wf M /\ dims M = [l; l; r; r] /\ (0 < l)%nat /\ (0 < r)%nat /\
  forall x y z w, (x < l)%nat -> (y < l)%nat -> (z < r)%nat -> (w < r)%nat -> get M [x; y; z; w] = c * TM p p ops x y z w.

Lemma senv_env l p ops r M : env_ok l l p p ops r r M -> senv l p ops r M 1.
Proof. intros (H1 & H2 & H3 & _ & H4 & _ & H5). repeat split; auto. intros. rewrite H5 by assumption. ring. Qed.

Lemma senv_tscale l p ops r M c d : senv l p ops r M c -> senv l p ops r (tscale d M) (d * c).
Proof.
  intros (H1 & H2 & H3 & H4 & H5). split; [apply wf_tscale; exact H1|]. split; [exact H2|]. repeat split; auto. intros x y z w Hx Hy Hz Hw.
  rewrite get_tscale; [|exact H1|rewrite H2; apply in_range_4; assumption]. rewrite H5 by assumption. ring.
Qed.

Lemma senv_step l p ops m M c A o d r : linked l p m -> ops_ok p p ops -> dims A = [m; d; r] -> wf A -> op_ok o d d -> (0 < d)%nat -> (0 < r)%nat ->
  senv l p ops m M c -> senv l (p ++ [A]) (ops ++ [o]) r (prop_matrix M 1 A A o) c.
Proof.
  intros Hp Hops HA Hw Ho Hd Hr (H1 & H2 & H3 & H4 & H5).
  assert (Hne : is_empty M = false) by (apply is_empty_wf; [exact H1|rewrite H2; cbn; nia]).
  unfold prop_matrix, prop_right. rewrite Hne. unfold rank. rewrite H2. cbn [Z.ltb Z.compare length Nat.eqb].
  split; [unfold prop_right4; apply wf_mk|]. split; [eapply prop_right4_dims; eauto|]. repeat split; auto. intros x y z w Hx Hy Hz Hww.
  rewrite (prop_right4_get M A A o l l m m d r d r) by assumption.
  rewrite (TM_app l l p p ops m m [A] [A] [o] r r); auto.
  2:{ cbn. exists d, r. auto. }
  2:{ cbn. exists d, r. auto. }
  rewrite sum_mul_l. apply sum_ext. intros a Ha. rewrite sum_mul_l. apply sum_ext. intros b Hb. rewrite H5 by assumption.
  rewrite (TM_single A A o a b z w _ _ _ _ _ _ HA HA Hz Hww). ring.
Qed.

Lemma senv_close l p ops M c : senv l p ops l M c -> p <> [] -> linked l p l -> close_value M = Ok (c * tot p ops).
Proof.
  intros (H1 & H2 & H3 & H4 & H5) Hp Hl. unfold close_value. replace (Nat.eqb (rank M) 4) with true by (unfold rank; rewrite H2; reflexivity). f_equal.
  unfold tot. rewrite <- (trace_TM p p ops l l Hp Hp Hl Hl).
  unfold prop_close, dim. rewrite H2. cbn [nth]. unfold trace_ends, dim. cbn [dims reshape tl removelast nth].
  unfold elem0, mk. cbn [data nprod fold_right seq map nth unravel]. rewrite sum_merge, sum_swap, sum_mul_l. apply sum_ext. intros x Hx.
  rewrite sum_mul_l. apply sum_ext. intros y Hy. cbn [app]. rewrite (get_reshape M _ _ [x; y; x; y]) by (rewrite H2; cbn; ring). apply H5; assumption.
Qed.

(** eig_power(f, n, &v), for the transfer map of a cell, is a power method: it applies f a number of times and
    rescales. *)
Definition power_iterates (eig_power : (tensor -> tensor) -> nat -> tensor -> tensor) : Prop :=
  forall A B n v, let f := fun v => prop_matrix (prop_matrix v 1 A A None) 1 B B None in
    exists k c, c <> 0%R /\ eig_power f n v = tscale (rinj c) (Nat.iter k f v).

Variable eig_power : (tensor -> tensor) -> nat -> tensor -> tensor.
Hypothesis Hep : power_iterates eig_power.

Section Chain.
Variables (psi : itebd) (D E dA dB : nat).
Hypothesis HD : (0 < D)%nat.
Hypothesis HE : (0 < E)%nat.
Hypothesis HdA : (0 < dA)%nat.
Hypothesis HdB : (0 < dB)%nat.
Hypothesis HA : dims (iAlA psi) = [D; dA; E].
Hypothesis HAw : wf (iAlA psi).
Hypothesis HB : dims (iBlB psi) = [E; dB; D].
Hypothesis HBw : wf (iBlB psi).

Lemma cell_linked : linked D [iAlA psi; iBlB psi] D.
Proof. exists dA, E. repeat split; auto. exists dB, D. repeat split; auto. Qed.

Lemma cells_S n : cells psi (S n) = (cells psi n ++ [iAlA psi]) ++ [iBlB psi].
Proof.
  rewrite <- app_assoc. cbn [app]. unfold cells. rewrite <- (Nat.add_1_r n), repeat_app, concat_app. reflexivity.
Qed.

Lemma senv_cell n M c : (0 < n)%nat -> senv D (cells psi n) (nn (length (cells psi n))) D M c ->
  senv D (cells psi (S n)) (nn (length (cells psi (S n)))) D (prop_matrix (prop_matrix M 1 (iAlA psi) (iAlA psi) None) 1 (iBlB psi) (iBlB psi) None) c.
Proof.
  intros Hn H. assert (Hl : linked D (cells psi n) D) by (apply (linked_pow D _ cell_linked)).
  assert (E1 : nn (length (cells psi (S n))) = (nn (length (cells psi n)) ++ [@None tensor]) ++ [None]).
  { rewrite cells_S, !app_length. cbn [length]. rewrite !nn_app. reflexivity. }
  rewrite E1, cells_S.
  apply (senv_step D _ _ E _ _ _ _ dB D); auto; [| |reflexivity|].
  - apply linked_app. exists D. split; [exact Hl|exists dA, E; repeat split; auto].
  - apply ops_ok_app; [apply ops_ok_none|]. split; [reflexivity|exact I].
  - apply (senv_step D _ _ D _ _ _ _ dA E); auto; [apply ops_ok_none|reflexivity].
Qed.

Lemma bdry_left_ok R0 : bdry_left eig_power (iAlA psi) (iBlB psi) = Ok R0 ->
  exists m c, (0 < m)%nat /\ senv D (cells psi m) (nn (length (cells psi m))) D R0 c.
Proof.
  unfold bdry_left. cbv zeta. set (v := prop_matrix (prop_matrix empty 1 (iAlA psi) (iAlA psi) None) 1 (iBlB psi) (iBlB psi) None).
  destruct (Req_EM_T (frob v) 0) as [|Hn]; [discriminate|]. intros H. apply Ok_inj' in H.
  destruct (Hep (iAlA psi) (iBlB psi) (length (data v)) (tdiv v (frob v))) as (k & c & Hc & Hk). rewrite Hk in H. subst R0. clear Hk.
  assert (H0 : senv D (cells psi 1) (nn (length (cells psi 1))) D v 1).
  { apply (senv_step D [iAlA psi] [None] E _ _ (iBlB psi) None dB D); auto.
    - exists dA, E; repeat split; auto.
    - split; [reflexivity|exact I].
    - reflexivity.
    - apply senv_env. apply (env_init (iAlA psi) (iAlA psi) None D dA E D dA E); auto. reflexivity. }
  apply (senv_tscale _ _ _ _ _ _ (rinj (/ frob v))) in H0. fold (tdiv v (frob v)) in H0.
  assert (Hi : senv D (cells psi (S k)) (nn (length (cells psi (S k)))) D
    (Nat.iter k (fun v => prop_matrix (prop_matrix v 1 (iAlA psi) (iAlA psi) None) 1 (iBlB psi) (iBlB psi) None) (tdiv v (frob v))) (rinj (/ frob v) * 1)).
  { clear Hc. induction k as [|k IH]; [exact H0|]. cbn [Nat.iter]. apply senv_cell; [lia|exact IH]. }
  exists (S k), (rinj c * (rinj (/ frob v) * 1)). split; [lia|]. apply senv_tscale. exact Hi.
Qed.

Lemma bdry_loop_ok Op1 i Opm Op2 j n : forall k q p o1 R0 R1 c x,
  Z.odd k = Nat.odd q -> bond D E (q + n) = D -> p <> [] ->
  linked D p (bond D E q) -> ops_ok p p o1 -> senv D p (nn (length p)) (bond D E q) R0 c -> senv D p o1 (bond D E q) R1 c ->
  (forall t, (t < n)%nat -> op_fits (opz Op1 i Opm Op2 j (k + Z.of_nat t)) (phys dA dB (q + t))) ->
  bdry_loop n k Op1 i Opm Op2 j (iAlA psi) (iBlB psi) R0 R1 = Ok x ->
  tot (p ++ sites psi q n) (nn (length p + n)) <> 0 /\
  x * tot (p ++ sites psi q n) (nn (length p + n)) =
  tot (p ++ sites psi q n) (o1 ++ map (fun t => oo (opz Op1 i Opm Op2 j (k + Z.of_nat t))) (seq 0 n)).
Proof.
  induction n as [|n IH]; intros k q p o1 R0 R1 c x Hk Hb Hp Hl Ho E0 E1' Hf Hx.
  - cbn [bdry_loop] in Hx. rewrite Nat.add_0_r in Hb. rewrite Hb in *. cbn [seq map sites]. rewrite !app_nil_r, Nat.add_0_r.
    rewrite (senv_close _ _ _ _ _ E0 Hp Hl), (senv_close _ _ _ _ _ E1' Hp Hl) in Hx. cbn [bind] in Hx. apply kdiv_inv in Hx. destruct Hx as [Hn Hx].
    split.
    + intros H. apply Hn. rewrite H. ring.
    + assert (Hc : c <> 0) by (intros H; apply Hn; rewrite H; ring).
      transitivity (kinv c * c * (x * tot p (nn (length p)))); [rewrite kinv_l by exact Hc; ring|].
      transitivity (kinv c * (x * (c * tot p (nn (length p))))); [ring|]. rewrite Hx.
      transitivity (kinv c * c * tot p o1); [ring|]. rewrite kinv_l by exact Hc. ring.
  - cbn [bdry_loop] in Hx. destruct (op_at Op1 i Opm Op2 j k) as [Op|] eqn:EOp; [|discriminate]. cbn [bind] in Hx. cbv zeta in Hx.
    set (AB := if Z.odd k then iBlB psi else iAlA psi) in *.
    assert (HAB : AB = site psi q) by (unfold AB, site, combined_matrix; rewrite odd_of_nat, <- Hk; reflexivity).
    assert (Hso : dims (site psi q) = [bond D E q; phys dA dB q; bond D E (S q)] /\ wf (site psi q) /\ (0 < phys dA dB q)%nat /\ (0 < bond D E (S q))%nat).
    { unfold site, combined_matrix, bond, phys. rewrite odd_of_nat, odd_S. destruct (Nat.odd q); cbn [negb]; auto. }
    destruct Hso as (Hsd & Hsw & Hsp & Hsb).
    destruct (is_empty Op) eqn:EO; [discriminate|].
    assert (Hf0 : op_fits Op (phys dA dB q)).
    { specialize (Hf 0%nat ltac:(lia)). rewrite Z.add_0_r, Nat.add_0_r in Hf. unfold opz in Hf. rewrite EOp in Hf. exact Hf. }
    destruct Hf0 as [H|Hop]; [congruence|].
    destruct (Req_EM_T (frob (prop_matrix R0 1 AB AB None)) 0) as [|Hn0]; [discriminate|]. rewrite HAB in *.
    assert (ER1 : senv D (p ++ [site psi q]) (o1 ++ [oo Op]) (bond D E (S q)) (prop_matrix R1 1 (site psi q) (site psi q) (Some Op)) c).
    { unfold oo. rewrite EO. apply (senv_step D p o1 (bond D E q) R1 c (site psi q) (Some Op) (phys dA dB q)); auto. exact (proj1 Hop). }
    assert (ER0 : senv D (p ++ [site psi q]) (nn (length (p ++ [site psi q]))) (bond D E (S q)) (prop_matrix R0 1 (site psi q) (site psi q) None) c).
    { rewrite app_length, nn_app. apply (senv_step D p (nn (length p)) (bond D E q) R0 c (site psi q) None (phys dA dB q)); auto; [apply ops_ok_none|reflexivity]. }
    set (f0 := frob (prop_matrix R0 1 (site psi q) (site psi q) None)) in *.
    assert (Esites : p ++ sites psi q (S n) = (p ++ [site psi q]) ++ sites psi (S q) n) by (rewrite <- app_assoc; reflexivity).
    assert (Elen : (length p + S n = length (p ++ [site psi q]) + n)%nat) by (rewrite app_length; cbn [length]; lia).
    assert (Eops : o1 ++ map (fun t => oo (opz Op1 i Opm Op2 j (k + Z.of_nat t))) (seq 0 (S n)) =
      (o1 ++ [oo Op]) ++ map (fun t => oo (opz Op1 i Opm Op2 j (k + 1 + Z.of_nat t))) (seq 0 n)).
    { rewrite <- app_assoc. f_equal. cbn [seq map app]. f_equal.
      - rewrite Z.add_0_r. unfold opz. rewrite EOp. reflexivity.
      - rewrite <- seq_shift, map_map. apply map_ext. intros t. f_equal. f_equal. lia. }
    rewrite Esites, Elen, Eops.
    apply (IH (k + 1)%Z (S q) (p ++ [site psi q]) (o1 ++ [oo Op]) (tdiv (prop_matrix R0 1 (site psi q) (site psi q) None) f0)
      (tdiv (prop_matrix R1 1 (site psi q) (site psi q) (Some Op)) f0) (rinj (/ f0) * c) x).
    + rewrite Z.odd_add, Hk, odd_S. destruct (Nat.odd q); reflexivity.
    + replace (S q + n)%nat with (q + S n)%nat by lia. exact Hb.
    + intros H. apply app_eq_nil in H. destruct H as [_ H]. discriminate H.
    + apply linked_app. exists (bond D E q). split; [assumption|]. exists (phys dA dB q), (bond D E (S q)). repeat split; auto.
    + apply ops_ok_app; [exact Ho|]. split; [|exact I]. unfold dim. rewrite Hsd. apply op_ok_oo'. right. exact Hop.
    + apply senv_tscale. exact ER0.
    + apply senv_tscale. exact ER1.
    + intros t Ht. specialize (Hf (S t) ltac:(lia)). replace (k + 1 + Z.of_nat t)%Z with (k + Z.of_nat (S t))%Z by lia.
      replace (S q + t)%nat with (q + S t)%nat by lia. exact Hf.
    + exact Hx.
Qed.

Lemma senv_zero l m p q M c : senv l p (nn (length p)) m M c -> linked l p m -> linked m q l -> p <> [] -> c <> 0 -> frob M = 0%R ->
  tot (p ++ q) (nn (length p + length q)) = 0.
Proof.
  clear Hep eig_power. intros (Hw & Hd & Hl0 & Hm0 & Hg) L1 L2 Hp Hc Hz. unfold tot.
  assert (L : linked l (p ++ q) l) by (apply linked_app; exists m; split; assumption).
  rewrite <- (trace_TM (p ++ q) (p ++ q) (nn (length p + length q)) l l); auto.
  2,3: (intros H; apply app_eq_nil in H; tauto).
  apply sum_zero. intros x Hx. apply sum_zero. intros y Hy. rewrite nn_app.
  rewrite (TM_app l l p p (nn (length p)) m m q q (nn (length q)) l l x y x y L1 L1 L2 L2 (ops_ok_none p) Hx Hy).
  apply sum_zero. intros z Hz'. apply sum_zero. intros w Hw'.
  assert (HT : TM p p (nn (length p)) x y z w = 0).
  { specialize (Hg x y z w Hx Hy Hz' Hw'). rewrite (frob_zero _ _ Hz) in Hg.
    transitivity (kinv c * c * TM p p (nn (length p)) x y z w); [rewrite kinv_l by exact Hc; ring|].
    transitivity (kinv c * (c * TM p p (nn (length p)) x y z w)); [ring|]. rewrite <- Hg. ring. }
  rewrite HT. ring.
Qed.

Lemma rinv_nonzero r : r <> 0%R -> rinj (/ r) <> 0.
Proof. clear. intros Hr H. rewrite <- rinj_0 in H. apply rinj_inj in H. revert H. apply Rinv_neq_0_compat. exact Hr. Qed.

Lemma bdry_left_total : tot (cells psi 1) (nn 2) <> 0 ->
  exists R0 m c, bdry_left eig_power (iAlA psi) (iBlB psi) = Ok R0 /\ c <> 0 /\ (0 < m)%nat /\ senv D (cells psi m) (nn (length (cells psi m))) D R0 c.
Proof.
  intros Ht. unfold bdry_left. cbv zeta. set (v := prop_matrix (prop_matrix empty 1 (iAlA psi) (iAlA psi) None) 1 (iBlB psi) (iBlB psi) None).
  assert (H0 : senv D (cells psi 1) (nn (length (cells psi 1))) D v 1).
  { apply (senv_step D [iAlA psi] [None] E _ _ (iBlB psi) None dB D); auto.
    - exists dA, E; repeat split; auto.
    - split; [reflexivity|exact I].
    - reflexivity.
    - apply senv_env. apply (env_init (iAlA psi) (iAlA psi) None D dA E D dA E); auto. reflexivity. }
  assert (H1n : (1 : K) <> 0).
  { intros H. rewrite <- rinj_1, <- rinj_0 in H. apply rinj_inj in H. lra. }
  destruct (Req_EM_T (frob v) 0) as [Hz|Hn].
  { exfalso. apply Ht. pose proof (senv_zero D D (cells psi 1) [] v 1 H0 (linked_pow D _ cell_linked 1) ltac:(reflexivity) ltac:(discriminate) H1n Hz) as Hz'.
    rewrite app_nil_r in Hz'. exact Hz'. }
  destruct (Hep (iAlA psi) (iBlB psi) (length (data v)) (tdiv v (frob v))) as (k & c & Hc & Hk). rewrite Hk.
  apply (senv_tscale _ _ _ _ _ _ (rinj (/ frob v))) in H0. fold (tdiv v (frob v)) in H0.
  assert (Hi : senv D (cells psi (S k)) (nn (length (cells psi (S k)))) D
    (Nat.iter k (fun v => prop_matrix (prop_matrix v 1 (iAlA psi) (iAlA psi) None) 1 (iBlB psi) (iBlB psi) None) (tdiv v (frob v))) (rinj (/ frob v) * 1)).
  { clear Hc Hk. induction k as [|k IH]; [exact H0|]. cbn [Nat.iter]. apply senv_cell; [lia|exact IH]. }
  eexists _, (S k), (rinj c * (rinj (/ frob v) * 1)). split; [reflexivity|]. split; [|split; [lia|apply senv_tscale; exact Hi]].
  apply kmul_nonzero; [intros H; rewrite <- rinj_0 in H; apply rinj_inj in H; contradiction|].
  apply kmul_nonzero; [apply rinv_nonzero; exact Hn|exact H1n].
Qed.

Lemma bdry_loop_total Op1 i Opm Op2 j n : forall k q p o1 R0 R1 c,
  Z.odd k = Nat.odd q -> bond D E (q + n) = D -> p <> [] -> c <> 0 ->
  linked D p (bond D E q) -> ops_ok p p o1 -> senv D p (nn (length p)) (bond D E q) R0 c -> senv D p o1 (bond D E q) R1 c ->
  (forall t, (t < n)%nat -> exists Op, op_at Op1 i Opm Op2 j (k + Z.of_nat t) = Ok Op /\ is_matrix Op (phys dA dB (q + t)) (phys dA dB (q + t))) ->
  tot (p ++ sites psi q n) (nn (length p + n)) <> 0 ->
  exists x, bdry_loop n k Op1 i Opm Op2 j (iAlA psi) (iBlB psi) R0 R1 = Ok x.
Proof.
  clear Hep eig_power.
  induction n as [|n IH]; intros k q p o1 R0 R1 c Hk Hb Hp Hc Hl Ho E0 E1' Hf Ht.
  - cbn [bdry_loop]. rewrite Nat.add_0_r in Hb. rewrite Hb in *. cbn [seq map sites] in Ht. rewrite !app_nil_r, Nat.add_0_r in Ht.
    rewrite (senv_close _ _ _ _ _ E0 Hp Hl), (senv_close _ _ _ _ _ E1' Hp Hl). cbn [bind]. apply kdiv_ok. apply kmul_nonzero; assumption.
  - cbn [bdry_loop]. destruct (Hf 0%nat ltac:(lia)) as (Op & EOp & Hop). rewrite Z.add_0_r in EOp. rewrite Nat.add_0_r in Hop. rewrite EOp. cbn [bind]. cbv zeta.
    set (AB := if Z.odd k then iBlB psi else iAlA psi).
    assert (HAB : AB = site psi q) by (unfold AB, site, combined_matrix; rewrite odd_of_nat, <- Hk; reflexivity).
    assert (Hso : forall q, dims (site psi q) = [bond D E q; phys dA dB q; bond D E (S q)] /\ wf (site psi q) /\ (0 < phys dA dB q)%nat /\ (0 < bond D E (S q))%nat).
    { intros q'. unfold site, combined_matrix, bond, phys. rewrite odd_of_nat, odd_S. destruct (Nat.odd q'); cbn [negb]; auto. }
    destruct (Hso q) as (Hsd & Hsw & Hsp & Hsb).
    rewrite (matrix_nonempty Op _ Hop Hsp). rewrite HAB.
    assert (ER1 : senv D (p ++ [site psi q]) (o1 ++ [Some Op]) (bond D E (S q)) (prop_matrix R1 1 (site psi q) (site psi q) (Some Op)) c).
    { apply (senv_step D p o1 (bond D E q) R1 c (site psi q) (Some Op) (phys dA dB q)); auto. exact (proj1 Hop). }
    assert (ER0 : senv D (p ++ [site psi q]) (nn (length (p ++ [site psi q]))) (bond D E (S q)) (prop_matrix R0 1 (site psi q) (site psi q) None) c).
    { rewrite app_length, nn_app. apply (senv_step D p (nn (length p)) (bond D E q) R0 c (site psi q) None (phys dA dB q)); auto; [apply ops_ok_none|reflexivity]. }
    set (f0 := frob (prop_matrix R0 1 (site psi q) (site psi q) None)) in *.
    assert (Hr : forall n q, linked (bond D E q) (sites psi q n) (bond D E (q + n))).
    { clear IH. induction n0 as [|n' IH]; intros q'; [rewrite Nat.add_0_r; reflexivity|].
      destruct (Hso q') as (Hsd' & Hsw' & Hsp' & Hsb'). unfold sites. cbn [seq map]. exists (phys dA dB q'), (bond D E (S q')). repeat split; auto.
      replace (q' + S n')%nat with (S q' + n')%nat by lia. apply IH. }
    assert (L3 : linked (bond D E (S q)) (sites psi (S q) n) D).
    { rewrite <- Hb at 2. replace (q + S n)%nat with (S q + n)%nat by lia. apply Hr. }
    assert (L2 : linked D (p ++ [site psi q]) (bond D E (S q))).
    { apply linked_app; exists (bond D E q); split; [assumption|]. exists (phys dA dB q), (bond D E (S q)). repeat split; auto. }
    assert (Esites : p ++ sites psi q (S n) = (p ++ [site psi q]) ++ sites psi (S q) n) by (rewrite <- app_assoc; reflexivity).
    assert (Elen : (length p + S n = length (p ++ [site psi q]) + n)%nat) by (rewrite app_length; cbn [length]; lia).
    rewrite Esites, Elen in Ht.
    assert (Hp' : p ++ [site psi q] <> []) by (intros H; apply app_eq_nil in H; destruct H as [_ H]; discriminate H).
    destruct (Req_EM_T f0 0) as [Hz|Hn0].
    { exfalso. apply Ht. replace n with (length (sites psi (S q) n)) at 2 by (unfold sites; rewrite map_length, seq_length; reflexivity).
      exact (senv_zero _ _ _ _ _ _ ER0 L2 L3 Hp' Hc Hz). }
    apply (IH (k + 1)%Z (S q) (p ++ [site psi q]) (o1 ++ [Some Op]) (tdiv (prop_matrix R0 1 (site psi q) (site psi q) None) f0)
      (tdiv (prop_matrix R1 1 (site psi q) (site psi q) (Some Op)) f0) (rinj (/ f0) * c)).
    + rewrite Z.odd_add, Hk, odd_S. destruct (Nat.odd q); reflexivity.
    + replace (S q + n)%nat with (q + S n)%nat by lia. exact Hb.
    + exact Hp'.
    + apply kmul_nonzero; [apply rinv_nonzero; exact Hn0|exact Hc].
    + exact L2.
    + apply ops_ok_app; [exact Ho|]. split; [|exact I]. unfold dim. rewrite Hsd. exact (proj1 Hop).
    + apply senv_tscale. exact ER0.
    + apply senv_tscale. exact ER1.
    + intros t Ht'. specialize (Hf (S t) ltac:(lia)). replace (k + 1 + Z.of_nat t)%Z with (k + Z.of_nat (S t))%Z by lia.
      replace (S q + t)%nat with (q + S t)%nat by lia. exact Hf.
    + exact Ht.
Qed.
End Chain.

(** The boundary method: with i < j, the value is the mean value in a ring of at least the cells of the
    operators and one more; how many depends on the power method. *)
Theorem C52_bdry_partial psi Op1 i Opm Op2 j x : wf_itebd psi -> (i < j)%Z ->
  op_fits Op1 (site_dim psi i) -> op_fits Op2 (site_dim psi j) -> (forall q, (i < q < j)%Z -> op_fits Opm (site_dim psi q)) ->
  bdry_string_order eig_power psi Op1 i Opm Op2 j = Ok x ->
  exists m, (0 < m)%nat /\
  is_ring_mean psi (m + ((par i + Z.to_nat (j - i)) / 2 + 1))
    (string_op (2 * m + par i) (2 * m + par i + Z.to_nat (j - i)) (op_of Op1) (op_of Opm) (op_of Op2)) x.
Proof.
  intros Hwf Hij H1 H2 Hm Hx. unfold bdry_string_order in Hx. destruct (Z.ltb_spec j i); [lia|].
  change (i_matrix psi 0) with (iA psi) in Hx. change (i_matrix psi 1) with (iB psi) in Hx. change (right_vector psi 0) with (ilA psi) in Hx. change (right_vector psi 1) with (ilB psi) in Hx.
  destruct (scale_A psi Hwf) as [SA SB]. pose proof Hwf as Hwf'.
  destruct Hwf as (D & E & dA & dB & HD & HE & HdA & HdB & HA & HAw & HB & HBw & HlA & HlB & HAl & HAlw & HBl & HBlw & HgA & HgB).
  unfold bdry_string_order_le in Hx. cbv zeta in Hx. rewrite SA, SB in Hx.
  destruct (bdry_left eig_power (iAlA psi) (iBlB psi)) as [R0|] eqn:ER0; [|discriminate]. cbn [bind] in Hx.
  destruct (bdry_left_ok psi D E dA dB HD HE HdA HdB HAl HAlw HBl HBlw R0 ER0) as (m & c & Hm0 & Hc). exists m. split; [exact Hm0|].
  apply opz_string; [exact Hij|]. apply ring_value; [exact Hwf'|].
  set (J := (par i + Z.to_nat (j - i))%nat) in *. set (n := (J / 2 + 1)%nat) in *.
  assert (EF : (if Z.odd i then (i - 1)%Z else i) = (i - Z.of_nat (par i))%Z) by (unfold par; destruct (Z.odd i); lia).
  assert (EJ : j = (i - Z.of_nat (par i) + Z.of_nat J)%Z) by (unfold J; lia).
  assert (OF : Z.odd (i - Z.of_nat (par i)) = false).
  { rewrite Z.odd_sub, odd_of_nat. unfold par. destruct (Z.odd i); reflexivity. }
  assert (OJ : Z.odd j = Nat.odd J) by (rewrite EJ, Z.odd_add, OF, odd_of_nat; destruct (Nat.odd J); reflexivity).
  assert (En : Z.to_nat ((if Z.odd j then j else (j + 1)%Z) - (i - Z.of_nat (par i)) + 1) = (2 * n)%nat).
  { unfold n. rewrite double_half, OJ. clearbody J. destruct (Nat.odd J); lia. }
  rewrite EF, En in Hx. clearbody n.
  assert (Hph : forall t, site_dim psi (i - Z.of_nat (par i) + Z.of_nat t)%Z = phys dA dB t).
  { intros t. unfold site_dim, i_matrix, phys, dim. rewrite Z.odd_add, OF, odd_of_nat. destruct (Nat.odd t); cbn [xorb]; rewrite ?HA, ?HB; reflexivity. }
  assert (L : linked D [iAlA psi; iBlB psi] D) by (apply (cell_linked psi D E dA dB); assumption).
  assert (Hb : bond D E (0 + 2 * n) = D) by (unfold bond; cbn [Nat.add]; rewrite Nat.odd_mul; reflexivity).
  apply (bdry_loop_ok psi D E dA dB HD HE HdA HdB HAl HAlw HBl HBlw Op1 i Opm Op2 j (2 * n) _ 0 (cells psi m) _ R0 R0 c x); auto.
  - intros H0. apply (f_equal (@length _)) in H0. rewrite length_cells in H0. cbn [length] in H0. lia.
  - apply (linked_pow D _ L).
  - apply ops_ok_none.
  - intros t Ht. cbn [Nat.add]. rewrite <- Hph. apply opz_fits; assumption.
Qed.

(** It returns a value if i is even, j is odd, all operators are given and no ring is zero. *)
Theorem C52_bdry_defined_partial psi Op1 i Opm Op2 j : wf_itebd psi -> (i < j)%Z -> Z.odd i = false -> Z.odd j = true ->
  is_matrix Op1 (site_dim psi i) (site_dim psi i) -> is_matrix Op2 (site_dim psi j) (site_dim psi j) ->
  (forall q, (i < q < j)%Z -> is_matrix Opm (site_dim psi q) (site_dim psi q)) ->
  (forall n, ring_mean psi (S n) id_op <> 0) ->
  exists x, bdry_string_order eig_power psi Op1 i Opm Op2 j = Ok x.
Proof.
  intros Hwf Hij Hi Hj H1 H2 Hm Hr. unfold bdry_string_order. destruct (Z.ltb_spec j i); [lia|].
  change (i_matrix psi 0) with (iA psi). change (i_matrix psi 1) with (iB psi). change (right_vector psi 0) with (ilA psi). change (right_vector psi 1) with (ilB psi).
  destruct (scale_A psi Hwf) as [SA SB]. pose proof Hwf as Hwf'.
  destruct Hwf as (D & E & dA & dB & HD & HE & HdA & HdB & HA & HAw & HB & HBw & HlA & HlB & HAl & HAlw & HBl & HBlw & HgA & HgB).
  unfold bdry_string_order_le. cbv zeta. rewrite SA, SB, Hi, Hj.
  assert (Hd1 : dim (iA psi) 1 = dim (iAlA psi) 1) by (unfold dim; rewrite HA, HAl; reflexivity).
  assert (Hd2 : dim (iB psi) 1 = dim (iBlB psi) 1) by (unfold dim; rewrite HB, HBl; reflexivity).
  assert (Ht : forall n, tot (cells psi (S n)) (nn (2 * S n)) <> 0).
  { intros n. rewrite <- (ring_tot psi (S n) id_op (nn (2 * S n)) Hd1 Hd2); [apply Hr|].
    intros is js His Hjs. symmetry. replace (2 * S n)%nat with (length is) by (rewrite (in_range_length _ _ His), length_cell_dims; lia).
    apply prodop_nones. rewrite (in_range_length _ _ His), (in_range_length _ _ Hjs). reflexivity. }
  destruct (bdry_left_total psi D E dA dB HD HE HdA HdB HAl HAlw HBl HBlw (Ht 0%nat)) as (R0 & m & c & ER & Hc & Hm0 & Hs). rewrite ER. cbn [bind].
  set (n := Z.to_nat ((j - i + 1) / 2)).
  assert (En : Z.to_nat (j - i + 1) = (2 * n)%nat).
  { unfold n. assert (Hodd : Z.odd (j - i + 1) = false) by (rewrite Z.odd_add, Z.odd_sub, Hi, Hj; reflexivity).
    pose proof (Z.div2_odd (j - i + 1)) as H0. rewrite Hodd in H0. cbn [Z.b2z] in H0. rewrite Z.div2_div in H0. rewrite Z.add_0_r in H0. lia. }
  rewrite En.
  assert (Hph : forall t, site_dim psi (i + Z.of_nat t)%Z = phys dA dB t).
  { intros t. unfold site_dim, i_matrix, phys, dim. rewrite Z.odd_add, Hi, odd_of_nat. destruct (Nat.odd t); cbn [xorb]; rewrite ?HA, ?HB; reflexivity. }
  assert (L : linked D [iAlA psi; iBlB psi] D) by (apply (cell_linked psi D E dA dB); assumption).
  assert (Hb : bond D E (0 + 2 * n) = D) by (unfold bond; cbn [Nat.add]; rewrite Nat.odd_mul; reflexivity).
  apply (bdry_loop_total psi D E dA dB HD HE HdA HdB HAl HAlw HBl HBlw Op1 i Opm Op2 j (2 * n) i 0 (cells psi m) (nn (length (cells psi m))) R0 R0 c); auto.
  - intros H0. apply (f_equal (@length _)) in H0. rewrite length_cells in H0. cbn [length] in H0. lia.
  - apply (linked_pow D _ L).
  - apply ops_ok_none.
  - intros t Ht'. cbn [Nat.add]. rewrite <- (Hph t). exists (opz Op1 i Opm Op2 j (i + Z.of_nat t)).
    unfold opz, op_at. destruct (Z.ltb_spec (i + Z.of_nat t) i); [lia|]. destruct (Z.ltb_spec j (i + Z.of_nat t)); [lia|]. cbn [orb].
    destruct (Z.eqb_spec (i + Z.of_nat t) i) as [E1|E1].
    { destruct (Z.eqb_spec i j); [lia|]. split; [reflexivity|]. rewrite E1. exact H1. }
    destruct (Z.eqb_spec (i + Z.of_nat t) j) as [E2|E2]; split; try reflexivity; [rewrite E2; exact H2|apply Hm; lia].
  - assert (Ecs : sites psi 0 (2 * n) = cells psi n).
    { symmetry. apply (cells_sites psi D E dA dB HD HE HdA HdB HlA HlB); unfold dim; rewrite ?HA, ?HB; reflexivity. }
    rewrite Ecs, length_cells. replace (cells psi m ++ cells psi n) with (cells psi (m + n)) by (unfold cells; rewrite repeat_app, concat_app; reflexivity).
    replace (2 * m + 2 * n)%nat with (2 * S (m + n - 1))%nat by lia. replace (m + n)%nat with (S (m + n - 1)) at 1 by lia. apply Ht.
Qed.

(** In all other cases the method fails: at a site of the cells without an operator it passes an empty tensor on
    to prop_matrix.  In particular expected(psi, Op, site), and expected(psi, Op1, i, Op2, j) unless j = i + 1 with i
    even (or the same with i and j exchanged), never return with this method, whatever the state. *)
Lemma bdry_fails Op1 i Opm Op2 j AlA BlB n : forall k R0 R1 t, (t < n)%nat -> (op_at Op1 i Opm Op2 j (k + Z.of_nat t) = Ok empty) ->
  bdry_loop n k Op1 i Opm Op2 j AlA BlB R0 R1 = Abort.
Proof.
  clear Hep eig_power. induction n as [|n IH]; intros k R0 R1 t Ht Hop; [lia|]. cbn [bdry_loop].
  destruct (op_at Op1 i Opm Op2 j k) as [Op|] eqn:EOp; [|reflexivity]. cbn [bind]. cbv zeta. destruct (is_empty Op) eqn:EO; [reflexivity|].
  destruct (Req_EM_T (frob (prop_matrix R0 1 (if Z.odd k then BlB else AlA) (if Z.odd k then BlB else AlA) None)) 0); [reflexivity|].
  destruct t as [|t].
  - rewrite Z.add_0_r in Hop. rewrite Hop in EOp. apply Ok_inj' in EOp. subst Op. discriminate EO.
  - apply (IH (k + 1)%Z _ _ t); [lia|]. rewrite <- Hop. f_equal. lia.
Qed.

Theorem C52_bdry_refuted psi :
  (forall svd eigs eig_sym Op site, string_order svd eigs eig_sym eig_power 3 psi
     (if Z.odd site then empty else Op) 0 empty (if Z.odd site then Op else empty) 1 = Abort) /\
  (forall Op1 i Opm Op2 j, (i < j)%Z -> (Z.odd i = true \/ Z.odd j = false \/ (i + 1 < j)%Z /\ Opm = empty) ->
     bdry_string_order eig_power psi Op1 i Opm Op2 j = Abort).
Proof.
  assert (H2 : forall Op1 i Opm Op2 j t, (i < j)%Z ->
    (t < Z.to_nat ((if Z.odd j then j else (j + 1)%Z) - (if Z.odd i then (i - 1)%Z else i) + 1))%nat ->
    op_at Op1 i Opm Op2 j ((if Z.odd i then (i - 1)%Z else i) + Z.of_nat t) = Ok empty -> bdry_string_order eig_power psi Op1 i Opm Op2 j = Abort).
  { intros Op1 i Opm Op2 j t Hij Ht Hop. unfold bdry_string_order. destruct (Z.ltb_spec j i); [lia|]. unfold bdry_string_order_le. cbv zeta.
    match goal with |- bind ?b _ = _ => destruct b as [R0|]; [|reflexivity] end. cbn [bind]. apply (bdry_fails _ _ _ _ _ _ _ _ _ _ _ t Ht Hop). }
  split.
  - intros svd eigs eig_sym Op site. unfold string_order. cbn [Nat.eqb]. destruct (Z.odd site).
    + apply (H2 _ _ _ _ _ 0%nat); [lia|cbn; lia|reflexivity].
    + apply (H2 _ _ _ _ _ 1%nat); [lia|cbn; lia|reflexivity].
  - intros Op1 i Opm Op2 j Hij [Hi|[Hj|[Hij2 ->]]].
    + apply (H2 _ _ _ _ _ 0%nat Hij); rewrite Hi; [destruct (Z.odd j); lia|]. unfold op_at. destruct (Z.ltb_spec (i - 1 + Z.of_nat 0) i); [reflexivity|lia].
    + set (f := if Z.odd i then (i - 1)%Z else i). assert (Hf : (f <= i)%Z) by (unfold f; destruct (Z.odd i); lia).
      apply (H2 _ _ _ _ _ (Z.to_nat (j + 1 - f)) Hij); rewrite ?Hj; fold f; [lia|]. unfold op_at.
      destruct (Z.ltb_spec (f + Z.of_nat (Z.to_nat (j + 1 - f))) i); [reflexivity|]. destruct (Z.ltb_spec j (f + Z.of_nat (Z.to_nat (j + 1 - f)))); [reflexivity|lia].
    + set (f := if Z.odd i then (i - 1)%Z else i). assert (Hf : (i - 1 <= f <= i)%Z) by (unfold f; destruct (Z.odd i); lia).
      apply (H2 _ _ _ _ _ (Z.to_nat (i + 1 - f)) Hij); fold f; [destruct (Z.odd j); lia|]. unfold op_at.
      replace (f + Z.of_nat (Z.to_nat (i + 1 - f)))%Z with (i + 1)%Z by lia.
      destruct (Z.ltb_spec (i + 1) i); [lia|]. destruct (Z.ltb_spec j (i + 1)); [lia|]. cbn [orb]. destruct (Z.eqb_spec (i + 1) i); [lia|]. destruct (Z.eqb_spec (i + 1) j); [lia|]. reflexivity.
Qed.
End C52.

(** A case in which the boundary method works: <Z_0 Z_1> in the pairs |00> + 2 |11>, with a power method that stops
    at once. *)
Theorem C52_bdry_case : power_iterates (fun f n (v : RT) => v) /\
  exists x, @bdry_string_order RR (fun f n v => v) (pair_state 2) pz 0 empty pz 1 = Ok x.
Proof.
  assert (Hp : power_iterates (fun f n (v : RT) => v)).
  { intros A B n v f. exists 0%nat, 1%R. split; [lra|]. cbn [Nat.iter]. destruct v as [d l]. unfold tscale. cbn [dims data]. f_equal.
    rewrite <- (map_id l) at 1. apply map_ext. intros y. symmetry. apply Rmult_1_l. }
  split; [exact Hp|]. apply (C52_bdry_defined_partial (fun f n (v : RT) => v) Hp (pair_state 2) pz 0 empty pz 1 (pair_wf 2)); try reflexivity; try (apply pz_matrix); try lia.
  intros n. apply pair_ring.
Qed.
