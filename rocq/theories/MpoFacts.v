(** Operator algebra: apply, mmult, adjoint, to_matrix, to_mps *)
From Coq Require Import Bool List Arith ZArith Lia Ring.
From Verif Require Import Scalar ScalarFacts Tensor TensorFacts Spec MpsModel MpsFacts EnvFacts
  ExpectedFacts StateFacts MpoSpec MpoModel.
Import ListNotations.
Local Open Scope K_scope.

Section Facts.
Context {SC : Scalar}.
Add Ring Kring : k_ring.

Lemma length_odims O : length (odims O) = length O.
Proof. apply map_length. Qed.
Lemma length_idims O : length (idims O) = length O.
Proof. apply map_length. Qed.

Lemma mlinked_pos l O r : (0 < l)%nat -> mlinked l O r -> (0 < r)%nat.
Proof.
  revert l. induction O as [|A O IH]; intros l Hl H; cbn in H; [lia|].
  destruct H as (d & e & c & _ & _ & _ & _ & Hc & H). eauto.
Qed.

Lemma mlinked_left l O r : O <> [] -> mlinked l O r -> mleft O = l.
Proof.
  intros Hne H. destruct O as [|A O]; [congruence|]. destruct H as (d & e & c & H1 & _).
  cbn. unfold dim. rewrite H1. reflexivity.
Qed.

Lemma mlinked_app l O1 O2 r : mlinked l (O1 ++ O2) r <-> exists m, mlinked l O1 m /\ mlinked m O2 r.
Proof.
  revert l. induction O1 as [|A O1 IH]; intros l; cbn.
  - split; [intros H; exists l; auto|intros (m & -> & H); exact H].
  - split.
    + intros (d & e & c & H1 & H2 & H3 & H4 & H5 & H). apply IH in H. destruct H as (m & H6 & H7).
      exists m. split; [|exact H7]. exists d, e, c. auto 10.
    + intros (m & (d & e & c & H1 & H2 & H3 & H4 & H5 & H) & H7).
      exists d, e, c. repeat (split; [assumption|]). apply IH. eauto.
Qed.

Lemma map_site_combine {A B C} (f : A -> B -> C) (d1 : A) (d2 : B) l1 l2 :
  length l1 = length l2 ->
  map (fun i => f (nth i l1 d1) (nth i l2 d2)) (seq 0 (length l1)) =
  map (fun p => f (fst p) (snd p)) (combine l1 l2).
Proof.
  revert l2. induction l1 as [|x l1 IH]; intros [|y l2] H; cbn in H; try discriminate; [reflexivity|].
  cbn [length seq map combine nth fst snd]. f_equal.
  rewrite <- seq_shift, map_map. rewrite <- IH by lia. reflexivity.
Qed.

(** *** apply *)
Lemma in_range_6 a b c d e f i j k l m n : (i < a)%nat -> (j < b)%nat -> (k < c)%nat -> (l < d)%nat ->
  (m < e)%nat -> (n < f)%nat -> in_range [a;b;c;d;e;f] [i;j;k;l;m;n].
Proof. repeat constructor; assumption. Qed.

Lemma apply_site_dims O A c1 j i c2 a1 a2 :
  dims O = [c1; j; i; c2] -> dims A = [a1; i; a2] ->
  dims (apply_site O A) = [c1 * a1; j; a2 * c2]%nat /\ wf (apply_site O A).
Proof.
  intros HO HA.
  assert (HB : dims (foldin O 2 A 1) = [a1; c1; j; c2; a2]).
  { unfold foldin, mk. rewrite HO, HA. reflexivity. }
  unfold apply_site, dim. rewrite HB. cbn [nth].
  split; [reflexivity|]. unfold wf, reshape. cbn [dims data].
  assert (Hw : wf (permute (foldin O 2 A 1) 0 1)) by apply wf_mk.
  unfold wf in Hw. rewrite Hw. unfold permute, mk. cbn [dims]. rewrite HB. cbn. ring.
Qed.

Lemma apply_site_get O A c1 j i c2 a1 a2 x u z y w :
  dims O = [c1; j; i; c2] -> dims A = [a1; i; a2] ->
  (x < c1)%nat -> (y < a1)%nat -> (u < j)%nat -> (z < c2)%nat -> (w < a2)%nat ->
  get (apply_site O A) [(x + c1 * y)%nat; u; (z + c2 * w)%nat] =
  sum i (fun v => get O [x; u; v; z] * get A [y; v; w]).
Proof.
  intros HO HA Hx Hy Hu Hz Hw.
  assert (HB : dims (foldin O 2 A 1) = [a1; c1; j; c2; a2]).
  { unfold foldin, mk. rewrite HO, HA. reflexivity. }
  unfold apply_site, dim. rewrite HB. cbn [nth].
  rewrite (get_reshape _ _ _ [x; y; u; z; w]).
  2:{ unfold permute, mk. cbn [dims]. rewrite HB. cbn. ring. }
  unfold permute. rewrite HB. cbn [swap_nth replace_nth nth].
  rewrite get_mk by (apply in_range_5; assumption). cbn [swap_nth replace_nth nth].
  unfold foldin, rank, dim. rewrite HO, HA. cbn [length Nat.sub firstn skipn remove_nth app nth].
  rewrite get_mk by (apply in_range_5; assumption). cbn [firstn skipn app insert_nth].
  reflexivity.
Qed.

Lemma delta_pair n x y z w : (x < n)%nat -> (z < n)%nat ->
  delta (x + n * y) (z + n * w) = delta x z * delta y w.
Proof.
  intros Hx Hz. unfold delta.
  assert (H : (x + n * y = z + n * w)%nat <-> x = z /\ y = w).
  { split; [|intros (-> & ->); reflexivity]. intros E. 
    assert (y = w) by nia. subst. lia. }
  destruct (Nat.eqb_spec x z), (Nat.eqb_spec y w), (Nat.eqb_spec (x + n * y) (z + n * w)); try ring;
    exfalso; tauto.
Qed.

Lemma chain_apply cl al O psi cr ar is x y z w :
  mlinked cl O cr -> linked al psi ar -> idims O = pdims psi -> in_range (odims O) is ->
  (x < cl)%nat -> (y < al)%nat -> (z < cr)%nat -> (w < ar)%nat ->
  chain (map (fun p => apply_site (fst p) (snd p)) (combine O psi)) is (x + cl * y) (z + cr * w) =
  sumcfg (pdims psi) (fun js => mchain O is js x z * chain psi js y w).
Proof.
  revert cl al psi is x y. induction O as [|P O IH]; intros cl al psi is x y HO Hp Hd His Hx Hy Hz Hw.
  - destruct psi; [|discriminate]. apply in_range_nil_inv in His. subst is.
    cbn in HO, Hp. cbn [combine map chain pdims sumcfg mchain]. subst cr ar.
    apply delta_pair; assumption.
  - destruct psi as [|A psi]; [discriminate|]. injection Hd as Hd1 Hd.
    destruct HO as (d & e & c & HP & HwP & Hd0 & He0 & Hc0 & HO).
    destruct Hp as (d' & c' & HA & HwA & Hd0' & Hc0' & Hp).
    assert (d' = e) by (unfold dim in Hd1; rewrite HP, HA in Hd1; cbn in Hd1; congruence). subst d'.
    cbn [odims map] in His. apply in_range_cons_inv in His. destruct His as (i & is' & -> & Hi & His).
    unfold dim in Hi. rewrite HP in Hi. cbn in Hi.
    cbn [combine map fst snd chain].
    destruct (apply_site_dims P A cl d e c al c' HP HA) as (HD & _).
    unfold dim at 1. rewrite HD. cbn [nth].
    rewrite (Nat.mul_comm c' c), sum_merge. cbn [pdims map sumcfg]. unfold dim at 1. rewrite HA. cbn [nth].
    transitivity (sum c' (fun n => sum c (fun m => sum e (fun v =>
       sumcfg (pdims psi) (fun js => get P [x; i; v; m] * get A [y; v; n] * (mchain O is' js m z * chain psi js n w)))))).
    { apply sum_ext. intros n Hn. apply sum_ext. intros m Hm.
      rewrite (apply_site_get P A cl d e c al c') by assumption.
      rewrite (IH c c' psi is' m n) by assumption. rewrite sum_mul_r. apply sum_ext. intros v Hv.
      apply sumcfg_mul_l. }
    transitivity (sum e (fun v => sum c' (fun n => sum c (fun m => 
       sumcfg (pdims psi) (fun js => get P [x; i; v; m] * get A [y; v; n] * (mchain O is' js m z * chain psi js n w)))))).
    { transitivity (sum c' (fun n => sum e (fun v => sum c (fun m => 
       sumcfg (pdims psi) (fun js => get P [x; i; v; m] * get A [y; v; n] * (mchain O is' js m z * chain psi js n w)))))).
      - apply sum_ext. intros n Hn. apply sum_swap.
      - apply sum_swap. }
    apply sum_ext. intros v Hv.
    transitivity (sumcfg (pdims psi) (fun js => sum c' (fun n => sum c (fun m => 
       get P [x; i; v; m] * get A [y; v; n] * (mchain O is' js m z * chain psi js n w))))).
    { rewrite sumcfg_sum_swap. apply sum_ext. intros n Hn. rewrite sumcfg_sum_swap. reflexivity. }
    apply sumcfg_ext. intros js Hjs. cbn [mchain chain]. unfold dim. rewrite HP, HA. cbn [nth].
    rewrite sum_mul_l. apply sum_ext. intros n Hn. rewrite sum_mul_r. apply sum_ext. intros m Hm. ring.
Qed.

Lemma apply_linked cl al O psi cr ar :
  mlinked cl O cr -> linked al psi ar -> idims O = pdims psi ->
  linked (cl * al) (map (fun p => apply_site (fst p) (snd p)) (combine O psi)) (cr * ar) /\
  pdims (map (fun p => apply_site (fst p) (snd p)) (combine O psi)) = odims O.
Proof.
  revert cl al psi. induction O as [|P O IH]; intros cl al psi HO Hp Hd.
  - destruct psi; [|discriminate]. cbn in *. subst. split; reflexivity.
  - destruct psi as [|A psi]; [discriminate|]. injection Hd as Hd1 Hd.
    destruct HO as (d & e & c & HP & HwP & Hd0 & He0 & Hc0 & HO).
    destruct Hp as (d' & c' & HA & HwA & Hd0' & Hc0' & Hp).
    assert (d' = e) by (unfold dim in Hd1; rewrite HP, HA in Hd1; cbn in Hd1; congruence). subst d'.
    destruct (apply_site_dims P A cl d e c al c' HP HA) as (HD & HwD).
    destruct (IH c c' psi HO Hp Hd) as (IH1 & IH2).
    cbn [combine map fst snd linked pdims odims]. split.
    + exists d, (c' * c)%nat. split; [exact HD|]. split; [exact HwD|]. split; [exact Hd0|].
      split; [nia|]. rewrite (Nat.mul_comm c' c). exact IH1.
    + f_equal; [|exact IH2]. unfold dim. rewrite HD, HP. reflexivity.
Qed.

Lemma length_of_dims {A} (f g : A -> nat) (l1 l2 : list A) : map f l1 = map g l2 -> length l1 = length l2.
Proof. intros H. apply (f_equal (@length _)) in H. rewrite !map_length in H. exact H. Qed.

Lemma apply_correct O psi : wf_mpo O -> wf_mps psi -> idims O = pdims psi ->
  exists chi, apply O psi = Ok chi /\ wf_mps chi /\ pdims chi = odims O /\
    left_bond chi = (mleft O * left_bond psi)%nat /\
    (forall is, in_range (odims O) is -> amp chi is = op_apply (pdims psi) (opelem O) (amp psi) is).
Proof.
  intros (HOn & C & HC & HO) (Hpn & D & HD & Hp) Hd.
  assert (Hlen : length O = length psi) by (eapply length_of_dims; exact Hd).
  unfold apply. rewrite Hlen, Nat.eqb_refl, <- Hlen. eexists. split; [reflexivity|].
  unfold site. rewrite (map_site_combine apply_site empty empty O psi Hlen).
  destruct (apply_linked C D O psi C D HO Hp Hd) as (H1 & H2).
  set (chi := map _ _) in *.
  assert (Hne : chi <> []).
  { unfold chi. destruct O; [congruence|]. destruct psi; [discriminate|]. discriminate. }
  split; [split; [exact Hne|]; exists (C * D)%nat; split; [nia|exact H1]|].
  split; [exact H2|].
  rewrite (linked_left_bond _ _ _ Hne H1), (mlinked_left _ _ _ HOn HO), (linked_left_bond _ _ _ Hpn Hp).
  split; [reflexivity|].
  intros is His. unfold amp at 1. rewrite (linked_left_bond _ _ _ Hne H1).
  rewrite sum_merge. unfold op_apply, opelem, amp.
  rewrite (mlinked_left _ _ _ HOn HO), (linked_left_bond _ _ _ Hpn Hp).
  transitivity (sumcfg (pdims psi) (fun js => sum D (fun y => sum C (fun x => mchain O is js x x * chain psi js y y)))).
  2:{ apply sumcfg_ext. intros js Hjs. rewrite sum_mul_l. apply sum_ext. intros y Hy.
      rewrite sum_mul_r. reflexivity. }
  rewrite sumcfg_sum_swap. apply sum_ext. intros y Hy. rewrite sumcfg_sum_swap. apply sum_ext. intros x Hx.
  apply (chain_apply C D O psi C D); assumption.
Qed.

(** *** mmult *)
Lemma mmult_site_dims A B a1 i j a2 c1 k c2 :
  dims A = [a1; i; j; a2] -> dims B = [c1; j; k; c2] ->
  dims (mmult_site A B) = [a1 * c1; i; k; a2 * c2]%nat /\ wf (mmult_site A B).
Proof.
  intros HA HB.
  assert (HC : dims (foldin B 1 A 2) = [a1; i; c1; k; c2; a2]).
  { unfold foldin, mk. rewrite HA, HB. reflexivity. }
  unfold mmult_site, dim. rewrite HC. cbn [nth].
  split; [reflexivity|]. unfold wf, reshape. cbn [dims data].
  assert (Hw : wf (permute (permute (foldin B 1 A 2) 1 2) 4 5)) by apply wf_mk.
  unfold wf in Hw. rewrite Hw. unfold permute, mk. cbn [dims]. rewrite HC. cbn. ring.
Qed.

Lemma mmult_site_get A B a1 i j a2 c1 k c2 x y u v z w :
  dims A = [a1; i; j; a2] -> dims B = [c1; j; k; c2] ->
  (x < a1)%nat -> (y < c1)%nat -> (u < i)%nat -> (v < k)%nat -> (z < a2)%nat -> (w < c2)%nat ->
  get (mmult_site A B) [(x + a1 * y)%nat; u; v; (z + a2 * w)%nat] =
  sum j (fun m => get A [x; u; m; z] * get B [y; m; v; w]).
Proof.
  intros HA HB Hx Hy Hu Hv Hz Hw.
  assert (HC : dims (foldin B 1 A 2) = [a1; i; c1; k; c2; a2]).
  { unfold foldin, mk. rewrite HA, HB. reflexivity. }
  unfold mmult_site, dim. rewrite HC. cbn [nth].
  assert (HC1 : dims (permute (foldin B 1 A 2) 1 2) = [a1; c1; i; k; c2; a2]).
  { unfold permute, mk. cbn [dims]. rewrite HC. reflexivity. }
  rewrite (get_reshape _ _ _ [x; y; u; v; z; w]).
  2:{ unfold permute at 1, mk. cbn [dims]. rewrite HC1. cbn. ring. }
  unfold permute at 1. rewrite HC1. cbn [swap_nth replace_nth nth].
  rewrite get_mk by (apply in_range_6; assumption). cbn [swap_nth replace_nth nth].
  unfold permute. rewrite HC. cbn [swap_nth replace_nth nth].
  rewrite get_mk by (apply in_range_6; assumption). cbn [swap_nth replace_nth nth].
  unfold foldin, rank, dim. rewrite HA, HB. cbn [length Nat.sub firstn skipn remove_nth app nth].
  rewrite get_mk by (apply in_range_6; assumption). cbn [firstn skipn app insert_nth].
  apply sum_ext. intros m Hm. ring.
Qed.

Lemma mchain_mmult al cl A B ar cr is ks x y z w :
  mlinked al A ar -> mlinked cl B cr -> idims A = odims B ->
  in_range (odims A) is -> in_range (idims B) ks ->
  (x < al)%nat -> (y < cl)%nat -> (z < ar)%nat -> (w < cr)%nat ->
  mchain (map (fun p => mmult_site (fst p) (snd p)) (combine A B)) is ks (x + al * y) (z + ar * w) =
  sumcfg (idims A) (fun js => mchain A is js x z * mchain B js ks y w).
Proof.
  revert al cl B is ks x y. induction A as [|P A IH]; intros al cl B is ks x y HA HB Hd His Hks Hx Hy Hz Hw.
  - destruct B; [|discriminate]. apply in_range_nil_inv in His, Hks. subst is ks. cbn in *. subst.
    apply delta_pair; assumption.
  - destruct B as [|Q B]; [discriminate|]. injection Hd as Hd1 Hd.
    destruct HA as (d & e & c & HP & HwP & Hd0 & He0 & Hc0 & HA).
    destruct HB as (e' & f & c' & HQ & HwQ & Hd0' & Hf0 & Hc0' & HB).
    assert (e' = e) by (unfold dim in Hd1; rewrite HP, HQ in Hd1; cbn in Hd1; congruence). subst e'.
    cbn [odims map] in His. apply in_range_cons_inv in His. destruct His as (i & is' & -> & Hi & His).
    cbn [idims map] in Hks. apply in_range_cons_inv in Hks. destruct Hks as (k & ks' & -> & Hk & Hks).
    unfold dim in Hi, Hk. rewrite HP in Hi. rewrite HQ in Hk. cbn in Hi, Hk.
    cbn [combine map fst snd mchain].
    destruct (mmult_site_dims P Q al d e c cl f c' HP HQ) as (HD & _).
    unfold dim at 1. rewrite HD. cbn [nth].
    rewrite sum_merge. cbn [idims map sumcfg]. unfold dim at 1. rewrite HP. cbn [nth].
    transitivity (sum c' (fun n => sum c (fun m => sum e (fun v =>
       sumcfg (idims A) (fun js => get P [x; i; v; m] * get Q [y; v; k; n] * (mchain A is' js m z * mchain B js ks' n w)))))).
    { apply sum_ext. intros n Hn. apply sum_ext. intros m Hm.
      rewrite (mmult_site_get P Q al d e c cl f c') by assumption.
      rewrite (IH c c' B is' ks' m n) by assumption. rewrite sum_mul_r. apply sum_ext. intros v Hv.
      apply sumcfg_mul_l. }
    transitivity (sum e (fun v => sum c' (fun n => sum c (fun m => 
       sumcfg (idims A) (fun js => get P [x; i; v; m] * get Q [y; v; k; n] * (mchain A is' js m z * mchain B js ks' n w)))))).
    { transitivity (sum c' (fun n => sum e (fun v => sum c (fun m => 
       sumcfg (idims A) (fun js => get P [x; i; v; m] * get Q [y; v; k; n] * (mchain A is' js m z * mchain B js ks' n w)))))).
      - apply sum_ext. intros n Hn. apply sum_swap.
      - apply sum_swap. }
    apply sum_ext. intros v Hv.
    transitivity (sumcfg (idims A) (fun js => sum c' (fun n => sum c (fun m => 
       get P [x; i; v; m] * get Q [y; v; k; n] * (mchain A is' js m z * mchain B js ks' n w))))).
    { rewrite sumcfg_sum_swap. apply sum_ext. intros n Hn. rewrite sumcfg_sum_swap. reflexivity. }
    apply sumcfg_ext. intros js Hjs. unfold dim. rewrite HP, HQ. cbn [nth].
    rewrite sum_mul_l. apply sum_ext. intros n Hn. rewrite sum_mul_r. apply sum_ext. intros m Hm. ring.
Qed.

Lemma mmult_linked al cl A B ar cr :
  mlinked al A ar -> mlinked cl B cr -> idims A = odims B ->
  mlinked (al * cl) (map (fun p => mmult_site (fst p) (snd p)) (combine A B)) (ar * cr) /\
  odims (map (fun p => mmult_site (fst p) (snd p)) (combine A B)) = odims A /\
  idims (map (fun p => mmult_site (fst p) (snd p)) (combine A B)) = idims B.
Proof.
  revert al cl B. induction A as [|P A IH]; intros al cl B HA HB Hd.
  - destruct B; [|discriminate]. cbn in *. subst. auto.
  - destruct B as [|Q B]; [discriminate|]. injection Hd as Hd1 Hd.
    destruct HA as (d & e & c & HP & HwP & Hd0 & He0 & Hc0 & HA).
    destruct HB as (e' & f & c' & HQ & HwQ & Hd0' & Hf0 & Hc0' & HB).
    assert (e' = e) by (unfold dim in Hd1; rewrite HP, HQ in Hd1; cbn in Hd1; congruence). subst e'.
    destruct (mmult_site_dims P Q al d e c cl f c' HP HQ) as (HD & HwD).
    destruct (IH c c' B HA HB Hd) as (IH1 & IH2 & IH3).
    cbn [combine map fst snd mlinked odims idims]. split; [|split].
    + exists d, f, (c * c')%nat. repeat (split; [assumption || nia|]). exact IH1.
    + f_equal; [|exact IH2]. unfold dim. rewrite HD, HP. reflexivity.
    + f_equal; [|exact IH3]. unfold dim. rewrite HD, HQ. reflexivity.
Qed.

Lemma mmult_correct A B : wf_mpo A -> wf_mpo B -> idims A = odims B ->
  exists C, mpo_mmult A B = Ok C /\ wf_mpo C /\ odims C = odims A /\ idims C = idims B /\
    (forall is ks, in_range (odims A) is -> in_range (idims B) ks ->
       opelem C is ks = op_mul (idims A) (opelem A) (opelem B) is ks).
Proof.
  intros (HAn & D & HD & HA) (HBn & E & HE & HB) Hd.
  assert (Hlen : length A = length B) by (eapply length_of_dims; exact Hd).
  unfold mpo_mmult. rewrite Hlen, Nat.eqb_refl, <- Hlen. eexists. split; [reflexivity|].
  unfold site. rewrite (map_site_combine mmult_site empty empty A B Hlen).
  destruct (mmult_linked D E A B D E HA HB Hd) as (H1 & H2 & H3).
  set (C := map _ _) in *.
  assert (Hne : C <> []).
  { unfold C. destruct A; [congruence|]. destruct B; [discriminate|]. discriminate. }
  split; [split; [exact Hne|]; exists (D * E)%nat; split; [nia|exact H1]|].
  split; [exact H2|]. split; [exact H3|].
  intros is ks His Hks. unfold opelem at 1. rewrite (mlinked_left _ _ _ Hne H1).
  rewrite sum_merge. unfold op_mul, opelem.
  rewrite (mlinked_left _ _ _ HAn HA), (mlinked_left _ _ _ HBn HB).
  transitivity (sumcfg (idims A) (fun js => sum E (fun y => sum D (fun x => mchain A is js x x * mchain B js ks y y)))).
  2:{ apply sumcfg_ext. intros js Hjs. rewrite sum_mul_l. apply sum_ext. intros y Hy.
      rewrite sum_mul_r. reflexivity. }
  rewrite sumcfg_sum_swap. apply sum_ext. intros y Hy. rewrite sumcfg_sum_swap. apply sum_ext. intros x Hx.
  apply (mchain_mmult D E A B D E); assumption.
Qed.

(** *** adjoint *)
Lemma adjoint_site_get A l d e c x i j z : dims A = [l; d; e; c] ->
  (x < l)%nat -> (i < d)%nat -> (j < e)%nat -> (z < c)%nat ->
  get (tconj (permute A 1 2)) [x; j; i; z] = kconj (get A [x; i; j; z]).
Proof.
  intros HA Hx Hi Hj Hz. rewrite get_tconj. f_equal. unfold permute. rewrite HA. cbn [swap_nth replace_nth nth].
  rewrite get_mk by (apply in_range_4; assumption). reflexivity.
Qed.

Lemma adjoint_site_dims A l d e c : dims A = [l; d; e; c] ->
  dims (tconj (permute A 1 2)) = [l; e; d; c] /\ wf (tconj (permute A 1 2)).
Proof.
  intros HA. split; [cbn; rewrite HA; reflexivity|]. apply wf_tconj. apply wf_mk.
Qed.

Lemma mchain_adjoint l O r is js x z : mlinked l O r -> in_range (odims O) is -> in_range (idims O) js ->
  (x < l)%nat ->
  mchain (adjoint_z O) js is x z = kconj (mchain O is js x z).
Proof.
  revert l is js x. induction O as [|P O IH]; intros l is js x HO His Hjs Hx.
  - apply in_range_nil_inv in His, Hjs. subst. cbn. unfold delta. destruct (Nat.eqb x z);
      [symmetry; apply kconj_1|symmetry; apply kconj_0].
  - destruct HO as (d & e & c & HP & HwP & Hd0 & He0 & Hc0 & HO).
    cbn [odims map] in His. apply in_range_cons_inv in His. destruct His as (i & is' & -> & Hi & His).
    cbn [idims map] in Hjs. apply in_range_cons_inv in Hjs. destruct Hjs as (j & js' & -> & Hj & Hjs).
    unfold dim in Hi, Hj. rewrite HP in Hi, Hj. cbn in Hi, Hj.
    destruct (adjoint_site_dims P l d e c HP) as (HD & _).
    cbn [adjoint_z map mchain]. unfold dim. rewrite HD, HP. cbn [nth]. rewrite sum_conj.
    apply sum_ext. intros m Hm. rewrite (adjoint_site_get P l d e c) by assumption.
    rewrite kconj_mul. f_equal. apply (IH c); assumption.
Qed.

Lemma adjoint_linked l O r : mlinked l O r -> mlinked l (adjoint_z O) r /\
  odims (adjoint_z O) = idims O /\ idims (adjoint_z O) = odims O.
Proof.
  revert l. induction O as [|P O IH]; intros l HO; cbn in HO; [subst; cbn; auto|].
  destruct HO as (d & e & c & HP & HwP & Hd0 & He0 & Hc0 & HO).
  destruct (adjoint_site_dims P l d e c HP) as (HD & HwD). destruct (IH c HO) as (IH1 & IH2 & IH3).
  cbn [adjoint_z map mlinked odims idims]. split; [|split].
  - exists e, d, c. auto 10.
  - f_equal; [|exact IH2]. unfold dim. rewrite HD, HP. reflexivity.
  - f_equal; [|exact IH3]. unfold dim. rewrite HD, HP. reflexivity.
Qed.

Lemma adjoint_z_correct O : wf_mpo O ->
  wf_mpo (adjoint_z O) /\ odims (adjoint_z O) = idims O /\ idims (adjoint_z O) = odims O /\
  (forall is js, in_range (odims O) is -> in_range (idims O) js ->
    opelem (adjoint_z O) js is = kconj (opelem O is js)).
Proof.
  intros (Hn & D & HD & HO). destruct (adjoint_linked D O D HO) as (H1 & H2 & H3).
  assert (Hne : adjoint_z O <> []) by (destruct O; [congruence|discriminate]).
  split; [split; [exact Hne|eauto]|]. split; [exact H2|]. split; [exact H3|].
  intros is js His Hjs. unfold opelem. rewrite (mlinked_left _ _ _ Hn HO), (mlinked_left _ _ _ Hne H1).
  rewrite sum_conj. apply sum_ext. intros x Hx. apply (mchain_adjoint D O D); assumption.
Qed.

(** <a | O b> = <O^+ a | b> *)
Lemma adjoint_moves ds M N f g :
  (forall is js, in_range ds is -> in_range ds js -> N js is = kconj (M is js)) ->
  inner ds f (op_apply ds M g) = inner ds (op_apply ds N f) g.
Proof.
  intros H. unfold inner, op_apply.
  transitivity (sumcfg ds (fun is => sumcfg ds (fun js => kconj (f is) * M is js * g js))).
  { apply sumcfg_ext. intros is His. rewrite sumcfg_mul_l. apply sumcfg_ext. intros js Hjs. ring. }
  rewrite sumcfg_swap. apply sumcfg_ext. intros js Hjs. rewrite sumcfg_conj, sumcfg_mul_r.
  apply sumcfg_ext. intros is His. rewrite H by assumption. rewrite kconj_mul, kconj_inv. ring.
Qed.

(** *** mpo_to_mps *)
Lemma mchain_to_mps l O r is js a b : mlinked l O r -> in_range (odims O) is -> in_range (idims O) js ->
  (a < l)%nat ->
  chain (mpo_to_mps O) (map (fun p => (fst (fst p) + snd p * snd (fst p))%nat) (combine (combine is js) (odims O))) a b
  = mchain O is js a b.
Proof.
  revert l is js a. induction O as [|P O IH]; intros l is js a HO His Hjs Ha.
  - apply in_range_nil_inv in His, Hjs. subst. reflexivity.
  - destruct HO as (d & e & c & HP & HwP & Hd0 & He0 & Hc0 & HO).
    cbn [odims map] in His. apply in_range_cons_inv in His. destruct His as (i & is' & -> & Hi & His).
    cbn [idims map] in Hjs. apply in_range_cons_inv in Hjs. destruct Hjs as (j & js' & -> & Hj & Hjs).
    cbn [combine map odims mpo_to_mps chain mchain fst snd].
    unfold dim in *. rewrite HP in *. cbn [nth dims reshape] in *.
    apply sum_ext. intros m Hm. f_equal.
    + apply get_reshape. rewrite HP. cbn. ring.
    + apply (IH c); assumption.
Qed.

Lemma to_mps_linked l O r : mlinked l O r -> linked l (mpo_to_mps O) r /\
  pdims (mpo_to_mps O) = map (fun p => (fst p * snd p)%nat) (combine (odims O) (idims O)).
Proof.
  revert l. induction O as [|P O IH]; intros l HO; cbn in HO; [subst; cbn; auto|].
  destruct HO as (d & e & c & HP & HwP & Hd0 & He0 & Hc0 & HO). destruct (IH c HO) as (IH1 & IH2).
  cbn [mpo_to_mps map linked pdims odims idims combine fst snd]. unfold dim. rewrite HP. cbn [nth dims reshape].
  split; [|f_equal; exact IH2].
  exists (d * e)%nat, c. split; [reflexivity|]. split.
  - unfold wf in *. cbn [dims data reshape]. rewrite HwP, HP. cbn. ring.
  - split; [nia|]. split; [exact Hc0|exact IH1].
Qed.

Lemma mleft_to_mps O : left_bond (mpo_to_mps O) = mleft O.
Proof. destruct O; reflexivity. Qed.

(** Sum over merged configurations *)
Lemma sumcfg_merge ds es f : length ds = length es ->
  sumcfg (map (fun p => (fst p * snd p)%nat) (combine ds es)) f =
  sumcfg ds (fun is => sumcfg es (fun js =>
    f (map (fun p => (fst (fst p) + snd p * snd (fst p))%nat) (combine (combine is js) ds)))).
Proof.
  revert es f. induction ds as [|d ds IH]; intros [|e es] f H; cbn in H; try discriminate; [reflexivity|].
  cbn [combine map fst snd sumcfg]. rewrite sum_merge, sum_swap.
  apply sum_ext. intros i Hi. rewrite sumcfg_sum_swap. apply sum_ext. intros j Hj.
  rewrite IH by lia. apply sumcfg_ext. intros is His. apply sumcfg_ext. intros js Hjs. reflexivity.
Qed.

Lemma mpo_to_mps_correct O : wf_mpo O ->
  wf_mps (mpo_to_mps O) /\
  pdims (mpo_to_mps O) = map (fun p => (fst p * snd p)%nat) (combine (odims O) (idims O)) /\
  forall is js, in_range (odims O) is -> in_range (idims O) js ->
    amp (mpo_to_mps O) (map (fun p => (fst (fst p) + snd p * snd (fst p))%nat) (combine (combine is js) (odims O)))
    = opelem O is js.
Proof.
  intros (Hn & D & HD & HO). destruct (to_mps_linked D O D HO) as (H1 & H2).
  assert (Hne : mpo_to_mps O <> []) by (destruct O; [congruence|discriminate]).
  split; [split; [exact Hne|eauto]|]. split; [exact H2|].
  intros is js His Hjs. unfold amp, opelem. rewrite mleft_to_mps, (mlinked_left _ _ _ Hn HO).
  apply sum_ext. intros x Hx. apply (mchain_to_mps D O D); assumption.
Qed.

Lemma mpo_hs_product A B sense : wf_mpo A -> wf_mpo B -> odims A = odims B -> idims A = idims B ->
  scprod (mpo_to_mps A) (mpo_to_mps B) sense = Ok (hs_inner (odims A) (idims A) (opelem A) (opelem B)).
Proof.
  intros HA HB Ho Hi. destruct (mpo_to_mps_correct A HA) as (A1 & A2 & A3).
  destruct (mpo_to_mps_correct B HB) as (B1 & B2 & B3).
  rewrite scprod_correct by (auto; rewrite A2, B2, Ho, Hi; reflexivity).
  f_equal. unfold inner, hs_inner. rewrite A2, sumcfg_merge by (rewrite length_odims, length_idims; reflexivity).
  apply sumcfg_ext. intros is His. apply sumcfg_ext. intros js Hjs.
  rewrite A3 by assumption. rewrite Ho. rewrite B3 by (rewrite <- ?Ho, <- ?Hi; assumption). reflexivity.
Qed.

(** *** expected *)
Lemma mpo_expected_correct bra O ket : wf_mps bra -> wf_mpo O -> wf_mps ket ->
  idims O = pdims ket -> odims O = pdims bra ->
  mpo_expected bra O ket =
  Ok (sumcfg (pdims bra) (fun is => sumcfg (pdims ket) (fun js =>
        kconj (amp bra is) * opelem O is js * amp ket js))).
Proof.
  intros Hb HO Hk Hi Ho. destruct (apply_correct O ket HO Hk Hi) as (chi & E & Hw & Hp & _ & Ha).
  unfold mpo_expected. rewrite E. cbn [bind]. rewrite scprod_correct by (auto; congruence).
  f_equal. unfold inner. apply sumcfg_ext. intros is His. rewrite Ha by (rewrite Ho; exact His).
  unfold op_apply. rewrite sumcfg_mul_l. apply sumcfg_ext. intros js Hjs. ring.
Qed.

End Facts.
