(** * C74: minimize() with a constraint, two-site algorithm *)
From Coq Require Import Reals Lra Bool List Arith ZArith Lia Ring.
From Verif Require Import Scalar ScalarFacts RScal Tensor TensorFacts Spec MpsModel MpsFacts StateFacts StateFacts2 MpoSpec MpoFacts CanonSpec CanonModel
  CanonFacts CanonSweep CanonTwo FormModel FormSpec QFormFacts SimplifySpec SimplifyModel SimplifyFacts SimplifyStep SimplifyDouble MinimizerModel MinLive MinimizeSpec MinLocal MinStep MinSweep MinLoop
  QFormValue QFormMain MinConstrained MinConstrainedRun ConstraintSpec Properties_Canon Properties_Form Properties_Minimize SvdExist EigsExist RealInst Witness SparseFacts.
Import ListNotations.
Local Open Scope K_scope.

Section Constraint.
Context {RS : RScal}.
Add Ring Kring : k_ring.
Variable svd : tensor -> tensor * list R * tensor.
Variable flag : R.
Hypothesis Hsvd : svd_contract svd.
Variable eigs : (tensor -> result tensor) -> nat -> nat -> tensor -> result (list K * tensor * bool).
Hypothesis Heigs : eigs_contract eigs.
Notation constrained H psi o N value := (minimize_with svd flag eigs H psi o N value None).

Lemma valid_plain H N psi ds o : valid_constrained flag H N psi ds o -> valid_minimize flag eigs H psi ds o.
Proof. intros (H1 & H2 & H3 & H4 & H5 & H6 & H7 & H8). split; [exact H1|]. split; [exact H3|]. split; [exact H4|]. split; [right; exact H5|]. split; [exact H8|left; exact H7]. Qed.

(** The constructor *)
Lemma constrained_starts H N psi ds o value : valid_constrained flag H N psi ds o ->
  exists b bN m, path H b /\ path N bN /\ constrained H psi o N value = full_sweep svd flag eigs o m /\
    readyc H N ds b bN value (length psi) true m /\ canonical_at 0 (mz_psi m).
Proof.
  intros HV. pose proof HV as (HH & HN & Ho & Hpd & HL & HD & Hg & Hz).
  destruct (minimizer_starts svd flag Hsvd eigs H psi ds o (valid_plain _ _ _ _ _ HV)) as (P0 & b & m & E0 & Hb & ((HQ & Hc & Hort & HNn) & Hst & HLm & Hcv) & Ep & Hl & Hl0 & _ & _ & _ & _ & _).
  pose proof HN as (HOp & Hod & Hid & Hher & is & js & Hi & Hj & Hne).
  destruct (path_exists N HOp ltac:(congruence) is js ltac:(congruence) ltac:(congruence) Hne) as (bN & HbN).
  rewrite Ep in *. pose proof HQ as (HoP & HpP & Hk & _).
  assert (HlN : length N = length P0) by (rewrite <- length_odims, Hod, <- HpP; apply length_pdims).
  destruct (proj1 (C45_constructor N P0 P0 0 HOp HoP HoP) ltac:(lia)) as (fN & EfN).
  exists b, bN, (mkMin P0 (mz_H m) (Some fN) value (mz_ortho m) (mz_step m) (mz_converged m)). split; [exact Hb|]. split; [exact HbN|]. split; [|split].
  - unfold minimize_with. rewrite E0. cbn [bind]. unfold add_constraint. rewrite Ep, EfN. reflexivity.
  - split; [|split; [exact Hst|split; [exact Hl|exact Hcv]]]. rewrite <- Hl. cbn [start].
    split; [exact HQ|]. split; [exact Hc|]. split; [exact Hort|]. split; [reflexivity|]. exists fN. split; [reflexivity|].
    split; [exact HoP|]. split; [exact HpP|]. split; [exact Hk|]. cbn [mz_psi]. split.
    + exact (qfh_new N P0 P0 0 fN HoP HoP ltac:(congruence) ltac:(congruence) EfN).
    + apply (live_new N HOp ltac:(congruence) bN HbN P0 P0 fN HoP HoP); congruence.
  - exact Hc.
Qed.

Lemma constrained_run H N psi ds o value : valid_constrained flag H N psi ds o -> (0 < o_sweeps o)%Z ->
  exists b bN psi' E, constrained H psi o N value = Ok (psi', E) /\
    (psi' <> [] -> exists d m, psi' = mz_psi m /\ postc flag H N ds b bN value o (length psi) d m E) /\
    (length psi = 2%nat -> eigs_converges eigs -> (forall P, open_mps P -> pdims P = ds -> exists r, (r < npair 0 P)%nat /\ admissible N value (emb2 0 P (delta r))) -> psi' <> []) /\
    (length psi = 2%nat -> (forall P, open_mps P -> pdims P = ds -> forall r, (r < npair 0 P)%nat -> ~ admissible N value (emb2 0 P (delta r))) -> psi' = [] /\ E = (10 ^ 28)%R).
Proof.
  intros HV Hs. pose proof HV as (HH & HN & Ho & Hpd & HL & HD & Hg & Hz). destruct (constrained_starts H N psi ds o value HV) as (b & bN & m & Hb & HbN & E0 & HR & _).
  exists b, bN. rewrite E0. destruct (cfull svd flag Hsvd eigs Heigs H N ds HH HN b bN Hb HbN value o Hg HD (length psi) m HL HR Hs) as (r & E & EL & A1 & A2 & A3).
  exists r, E. split; [exact EL|]. split; [exact A1|]. split; [exact A2|]. intros E2 Hno. apply A3; [exact E2|]. destruct HR as (((Hop & Hpp & _) & _) & _). apply Hno; assumption.
Qed.

(** minimize() with a constraint always returns. *)
Theorem C74_returns H N psi ds o value : valid_constrained flag H N psi ds o -> exists psi' E, constrained H psi o N value = Ok (psi', E).
Proof.
  intros HV. destruct (Z_lt_le_dec 0 (o_sweeps o)) as [Hs|Hs].
  - destruct (constrained_run H N psi ds o value HV Hs) as (_ & _ & psi' & E & -> & _). eauto.
  - destruct (constrained_starts H N psi ds o value HV) as (b & bN & m & _ & _ & -> & _). unfold full_sweep. replace (Z.to_nat (o_sweeps o)) with 0%nat by lia. cbn [full_loop]. eauto.
Qed.

(** What a state that is not empty is: an open state of the same sites, of weight at most one, canonical around an end, with
    bonds of at most Dmax.  The last step worked on two sites k, k+1 at one end.  There are states e_0, e_1, ...,
    orthonormal, which span all the states that differ from the result only at those two sites.  The step chose the
    combination of lowest energy among those of the e_r that satisfy the constraint: <e_r|N|e_r> is the value, up to
    10^-6.  E is its energy, and it is the result if nothing is truncated. *)
Theorem C74_constrained H N psi ds o value psi' E : valid_constrained flag H N psi ds o -> (0 < o_sweeps o)%Z ->
  constrained H psi o N value = Ok (psi', E) -> psi' <> [] ->
  open_mps psi' /\ pdims psi' = ds /\ (0 < weight ds (amp psi') <= 1)%R /\
  (exists k, (k = 0 \/ k = length psi - 1)%nat /\ canonical_at k psi') /\ ((0 < o_Dmax o)%Z -> bonds_le (o_Dmax o) psi') /\
  exists k n (e : nat -> mps) p, (k = 0 \/ k = length psi - 2)%nat /\
    (forall r, open_mps (e r) /\ pdims (e r) = ds /\ differs_at2 psi' (e r) k) /\
    (forall phi, open_mps phi -> pdims phi = ds -> differs_at2 psi' phi k -> exists x, forall is, in_range ds is -> amp phi is = combination n e x is) /\
    (forall x, weight ds (combination n e x) = rsum n (fun r => kmod2 (x r))) /\
    (forall r, (r < n)%nat -> p r <> 0 -> admissible N value (e r)) /\
    weight ds (combination n e p) = 1%R /\ energy_of H ds (combination n e p) = E /\
    (forall x, (forall r, (r < n)%nat -> x r <> 0 -> admissible N value (e r)) ->
       (E * weight ds (combination n e x) <= energy_of H ds (combination n e x))%R) /\
    (keeps_all flag o -> forall is, in_range ds is -> amp psi' is = combination n e p is).
Proof.
  intros HV Hs HR Hne. pose proof HV as (HH & HN & Ho & Hpd & HL & HD & Hg & Hz).
  destruct (constrained_run H N psi ds o value HV Hs) as (b & bN & p0 & E0 & ER & HP & _). rewrite HR in ER. apply Ok_inj' in ER. injection ER as <- <-.
  destruct (HP Hne) as (d & m & -> & ((HQ & Hc & _) & Hst & HLm & Hcv) & (P & HoP & HpP & Hkk & (k0 & Hk0 & Hc0) & Hdf & HW & p & Hp1 & Hp2 & Hp3 & Hp4 & Hp5) & Hsm).
  set (psi' := mz_psi m) in *. set (kk := (if d then 0 else length psi - 2)%nat) in *. pose proof HQ as (HoQ & HpQ & _).
  split; [exact HoQ|]. split; [exact HpQ|]. split; [exact HW|]. split; [exists (start d (length psi)); split; [destruct d; cbn [start]; lia|exact Hc]|].
  split; [intros HD1 j Hj; apply Hsm; [lia|exact HD1]|].
  destruct (site2_dims kk P HoP Hkk) as (a & i & mm & j & c & D1 & D2 & W1 & W2 & Hpos).
  assert (Enp : npair kk P = nprod [a; i; j; c]) by (unfold npair, dim; rewrite D1, D2; reflexivity). rewrite Enp in *.
  set (n := nprod [a; i; j; c]) in *. set (e := fun r => emb2 kk P (delta r)).
  assert (Hop : forall x, open_mps (emb2 kk P x) /\ pdims (emb2 kk P x) = ds) by (intros x; apply (emb2_open ds kk P a i mm j c); assumption).
  assert (Hcomb : forall x is, in_range ds is -> amp (emb2 kk P x) is = combination n e x is).
  { intros x is Hi. apply (emb2_comb ds kk P a i mm j c); assumption. }
  assert (HEW : forall x, energy H (emb2 kk P x) = energy_of H ds (combination n e x) /\ weight ds (amp (emb2 kk P x)) = weight ds (combination n e x)).
  { intros x. unfold energy, energy_of, weight, inner. rewrite (proj2 (Hop x)). split; f_equal.
    - apply sumcfg_ext. intros is Hi. apply sumcfg_ext. intros js Hj. rewrite !Hcomb by assumption. reflexivity.
    - apply sumcfg_ext. intros is Hi. rewrite !Hcomb by assumption. reflexivity. }
  exists kk, n, e, p. split; [unfold kk; destruct d; auto|]. split; [|split; [|split; [|split; [exact Hp1|split; [|split; [|split]]]]]].
  - intros r. split; [apply Hop|]. split; [apply Hop|]. intros q H1 H2. rewrite Hdf by assumption. unfold e. rewrite (emb2_eq kk P a i mm j c D1 D2), site_put2 by exact Hkk.
    destruct (Nat.eqb_spec q kk); [contradiction|]. destruct (Nat.eqb_spec q (S kk)); [contradiction|reflexivity].
  - intros phi O1 P1 Df.
    assert (Df' : differs_at2 P phi kk) by (intros q H1 H2; rewrite Df, Hdf by assumption; reflexivity).
    destruct (differ2 ds kk P phi a i mm j c HoP HpP Hkk D1 D2 O1 P1 Df') as (A & B' & q & -> & Hq & HwA & HdA & HwB & HdB).
    eexists. intros is Hi. rewrite (put2_emb ds kk P a i mm j c HoP HpP Hkk D1 D2 Hpos A B' q Hq HwA HdA HwB HdB is Hi). apply Hcomb. exact Hi.
  - intros x. rewrite <- (proj2 (HEW x)). apply (emb2_weight H ds HH kk P a i mm j c HoP HpP Hkk D1 D2 Hpos k0 x Hk0 Hc0).
  - rewrite <- (proj2 (HEW p)). exact Hp2.
  - rewrite <- (proj1 (HEW p)). exact Hp3.
  - intros x Hx. rewrite <- (proj1 (HEW x)), <- (proj2 (HEW x)). apply Hp4. exact Hx.
  - intros (K1 & K2) is Hi. rewrite <- Hcomb by exact Hi. apply Hp5; [|exact Hi]. destruct K2 as [K2|K2]; [contradiction|]. split; [exact K1|]. apply exact_tol_iff. exact K2.
Qed.

(** ** Two sites *)
Lemma two_pos2 (P : mps) (ds : list nat) : open_mps P -> pdims P = ds -> length ds = 2%nat ->
  exists d0 d1 m, ds = [d0; d1] /\ length P = 2%nat /\ dims (site P 0) = [1; d0; m]%nat /\ dims (site P 1) = [m; d1; 1]%nat /\ (0 < d0 /\ 0 < d1 /\ 0 < m)%nat.
Proof.
  intros (Hn & HL) Hd Hl. subst ds. rewrite length_pdims in Hl. destruct P as [|A [|B [|C P]]]; try discriminate Hl.
  cbn [linked] in HL. destruct HL as (d & c & HA & _ & Hd0 & Hc & d' & c' & HB & _ & Hd1 & Hc' & ->).
  exists d, d', c. cbn [pdims map site nth]. unfold dim. rewrite HA, HB. cbn [nth]. auto 10.
Qed.

Lemma two_emb P ds x is : open_mps P -> pdims P = ds -> length ds = 2%nat -> in_range ds is -> amp (emb2 0 P x) is = x (offset ds is).
Proof.
  intros Ho Hd Hl Hi. destruct (two_pos2 P ds Ho Hd Hl) as (d0 & d1 & m & Eds & HlP & D1 & D2 & Hp).
  destruct (emb2_amp ds 0 P 1 d0 m d1 1 Ho Hd ltac:(rewrite HlP; lia) D1 D2 ltac:(lia) is Hi) as (i1 & y & z & i2 & -> & E1 & Hy & Hz & HA).
  rewrite HA. destruct i1; [|discriminate E1]. cbn [app] in *. rewrite Eds in Hi |- *.
  assert (E2 : i2 = []) by (apply ScalarFacts.in_range_length in Hi; cbn in Hi; destruct i2; [reflexivity|discriminate Hi]). subst i2.
  unfold amp_two. cbn [firstn]. rewrite (skipn_all2 P) by (rewrite HlP; lia). cbn [sum chain]. unfold delta. cbn [Nat.eqb].
  replace (offset [1; d0; d1; 1]%nat [0; y; z; 0]%nat) with (offset [d0; d1] [y; z]) by (cbn [offset]; lia). ring.
Qed.

Lemma two_npair P ds : open_mps P -> pdims P = ds -> length ds = 2%nat -> npair 0 P = nprod ds.
Proof.
  intros Ho Hd Hl. destruct (two_pos2 P ds Ho Hd Hl) as (d0 & d1 & m & Eds & HlP & D1 & D2 & Hp). unfold npair, dim. rewrite D1, D2, Eds. cbn. lia.
Qed.

Lemma sumcfg_point ds (F : list nat -> K) r : (r < nprod ds)%nat -> sumcfg ds (fun is => delta r (offset ds is) * F is) = F (unravel ds r).
Proof.
  intros Hr. rewrite (sumcfg_ext ds _ (fun is => delta r (offset ds is) * F (unravel ds (offset ds is)))).
  - rewrite <- (sum_offset ds (fun q => delta r q * F (unravel ds q))). apply (sum_delta_l' (nprod ds) r (fun q => F (unravel ds q)) Hr).
  - intros is Hi. rewrite unravel_offset by exact Hi. reflexivity.
Qed.

Lemma two_admissible N value P ds r : open_mps P -> pdims P = ds -> length ds = 2%nat -> (r < nprod ds)%nat ->
  (admissible N value (emb2 0 P (delta r)) <-> admissible_at N value (unravel ds r)).
Proof.
  intros Ho Hd Hl Hr. unfold admissible, admissible_at.
  assert (E : sandwich (emb2 0 P (delta r)) N (emb2 0 P (delta r)) = opelem N (unravel ds r) (unravel ds r)); [|rewrite E; reflexivity].
  destruct (two_pos2 P ds Ho Hd Hl) as (d0 & d1 & m & Eds & HlP & D1 & D2 & Hp).
  pose proof (proj2 (emb2_open ds 0 P 1 d0 m d1 1 Ho Hd ltac:(rewrite HlP; lia) D1 D2 ltac:(lia) (delta r))) as Hpd.
  unfold sandwich. rewrite Hpd.
  rewrite (sumcfg_ext ds _ (fun is => delta r (offset ds is) * opelem N is (unravel ds r))).
  - apply (sumcfg_point ds (fun is => opelem N is (unravel ds r)) r Hr).
  - intros is Hi. rewrite (sumcfg_ext ds _ (fun js => delta r (offset ds js) * (kconj (delta r (offset ds is)) * opelem N is js))).
    + rewrite (sumcfg_point ds (fun js => kconj (delta r (offset ds is)) * opelem N is js) r Hr). unfold delta. destruct (Nat.eqb r (offset ds is)); rewrite ?kconj_0, ?kconj_1; reflexivity.
    + intros js Hj. rewrite !(two_emb P ds) by assumption. ring.
Qed.

(** With two sites: E is the lowest energy of the wave functions that vanish on the configurations whose diagonal
    element of N is not the value (up to 10^-6), one of them, p, has that energy and norm one, and it is the result
    if nothing is truncated. *)
Theorem C74_two_sites H N psi ds o value psi' E : valid_constrained flag H N psi ds o -> length psi = 2%nat -> (0 < o_sweeps o)%Z ->
  constrained H psi o N value = Ok (psi', E) -> psi' <> [] ->
  exists p, (forall is, in_range ds is -> p is <> 0 -> admissible_at N value is) /\ weight ds p = 1%R /\ energy_of H ds p = E /\
    (forall f, (forall is, in_range ds is -> f is <> 0 -> admissible_at N value is) -> (E * weight ds f <= energy_of H ds f)%R) /\
    (keeps_all flag o -> forall is, in_range ds is -> amp psi' is = p is).
Proof.
  intros HV HL2 Hs HR Hne. pose proof HV as (HH & HN & Ho & Hpd & HL & HD & Hg & Hz).
  destruct (constrained_run H N psi ds o value HV Hs) as (b & bN & p0 & E0 & ER & HP & _). rewrite HR in ER. apply Ok_inj' in ER. injection ER as <- <-.
  destruct (HP Hne) as (d & m & -> & ((HQ & Hc & _) & Hst & HLm & Hcv) & (P & HoP & HpP & Hkk & (k0 & Hk0 & Hc0) & Hdf & HW & p & Hp1 & Hp2 & Hp3 & Hp4 & Hp5) & Hsm).
  replace (if d then 0 else length psi - 2)%nat with 0%nat in * by (destruct d; lia).
  assert (Hl : length ds = 2%nat) by (rewrite <- Hpd, length_pdims; exact HL2).
  rewrite (two_npair P ds HoP HpP Hl) in *. pose proof (two_emb P ds) as Hemb.
  destruct (two_pos2 P ds HoP HpP Hl) as (d0 & d1 & mm & Eds & HlP & D1 & D2 & Hpos).
  assert (Hop : forall x, pdims (emb2 0 P x) = ds) by (intros x; apply (emb2_open ds 0 P 1 d0 mm d1 1 HoP HpP ltac:(rewrite HlP; lia) D1 D2 ltac:(lia))).
  assert (HEW : forall x f, (forall is, in_range ds is -> f is = x (offset ds is)) -> energy H (emb2 0 P x) = energy_of H ds f /\ weight ds (amp (emb2 0 P x)) = weight ds f).
  { intros x f Hf. unfold energy, energy_of, weight, inner. rewrite Hop. split; f_equal.
    - apply sumcfg_ext. intros is Hi. apply sumcfg_ext. intros js Hj. rewrite !Hemb, !Hf by assumption. reflexivity.
    - apply sumcfg_ext. intros is Hi. rewrite !Hemb, !Hf by assumption. reflexivity. }
  destruct (HEW p (fun is => p (offset ds is)) (fun _ _ => eq_refl)) as (U1 & U2).
  exists (fun is => p (offset ds is)). split; [|split; [congruence|split; [congruence|split]]].
  - intros is Hi Hn. pose proof (offset_lt ds is Hi) as Hr. rewrite <- (unravel_offset ds is Hi). apply (two_admissible N value P ds (offset ds is)); auto.
  - intros f Hf. destruct (HEW (fun r => f (unravel ds r)) f) as (V1 & V2); [intros is Hi; rewrite unravel_offset by exact Hi; reflexivity|].
    rewrite <- V1, <- V2. apply Hp4. intros r Hr Hn. apply (two_admissible N value P ds r HoP HpP Hl Hr). apply Hf; [apply unravel_in_range; exact Hr|exact Hn].
  - intros (K1 & K2) is Hi. rewrite Hp5; [apply Hemb; assumption| |exact Hi]. destruct K2 as [K2|K2]; [contradiction|]. split; [exact K1|]. apply exact_tol_iff. exact K2.
Qed.

(** The result is empty if there is no such configuration, and only then if the eigenvalue solver always converges. *)
Theorem C74_no_state H N psi ds o value : valid_constrained flag H N psi ds o -> length psi = 2%nat -> (0 < o_sweeps o)%Z ->
  (forall is, in_range ds is -> ~ admissible_at N value is) -> constrained H psi o N value = Ok ([], (10 ^ 28)%R).
Proof.
  intros HV HL2 Hs Hno. pose proof HV as (HH & HN & Ho & Hpd & HL & HD & Hg & Hz).
  assert (Hl : length ds = 2%nat) by (rewrite <- Hpd, length_pdims; exact HL2).
  destruct (constrained_run H N psi ds o value HV Hs) as (b & bN & p0 & E0 & ER & _ & _ & HE). rewrite ER.
  destruct (HE HL2) as (-> & ->); [|reflexivity]. intros P HoP HpP r Hr Ha. rewrite (two_npair P ds HoP HpP Hl) in Hr.
  apply (two_admissible N value P ds r HoP HpP Hl Hr) in Ha. apply (Hno (unravel ds r)); [apply unravel_in_range; exact Hr|exact Ha].
Qed.
Theorem C74_some_state H N psi ds o value is psi' E : valid_constrained flag H N psi ds o -> length psi = 2%nat -> (0 < o_sweeps o)%Z -> eigs_converges eigs ->
  in_range ds is -> admissible_at N value is -> constrained H psi o N value = Ok (psi', E) -> psi' <> [].
Proof.
  intros HV HL2 Hs Hcc Hi Ha HR. pose proof HV as (HH & HN & Ho & Hpd & HL & HD & Hg & Hz).
  assert (Hl : length ds = 2%nat) by (rewrite <- Hpd, length_pdims; exact HL2).
  destruct (constrained_run H N psi ds o value HV Hs) as (b & bN & p0 & E0 & ER & _ & HE & _). rewrite HR in ER. apply Ok_inj' in ER. injection ER as <- <-.
  apply (HE HL2 Hcc). intros P HoP HpP. exists (offset ds is). rewrite (two_npair P ds HoP HpP Hl). pose proof (offset_lt ds is Hi) as Hr. split; [exact Hr|].
  apply (two_admissible N value P ds _ HoP HpP Hl Hr). rewrite unravel_offset by exact Hi. exact Ha.
Qed.
End Constraint.

(** ** Cases *)
Section Cases.
Local Open Scope R_scope.

(** Z x 1 + 1 x Z *)
Definition total_z : RO :=
  [@mk (@rs_scalar RR) [1; 2; 2; 2]%nat (fun x => if Nat.eqb (nth 3 x 0%nat) 0 then xz 1 (nth 1 x 0%nat) (nth 2 x 0%nat) else if Nat.eqb (nth 1 x 0%nat) (nth 2 x 0%nat) then 1 else 0);
   @mk (@rs_scalar RR) [2; 2; 2; 1]%nat (fun x => if Nat.eqb (nth 0 x 0%nat) 1 then xz 1 (nth 1 x 0%nat) (nth 2 x 0%nat) else if Nat.eqb (nth 1 x 0%nat) (nth 2 x 0%nat) then 1 else 0)].
(** s X x 1 *)
Definition x_first (s : R) : RO :=
  [@mk (@rs_scalar RR) [1; 2; 2; 1]%nat (fun x => s * xz 0 (nth 1 x 0%nat) (nth 2 x 0%nat));
   @mk (@rs_scalar RR) [1; 2; 2; 1]%nat (fun x => if Nat.eqb (nth 1 x 0%nat) (nth 2 x 0%nat) then 1 else 0)].

Lemma total_z_hamiltonian : @hamiltonian RR total_z [2; 2]%nat.
Proof.
  split; [|split; [reflexivity|split; [reflexivity|split]]].
  - split; [discriminate|]. unfold total_z. cbn [mlinked].
    exists 2%nat, 2%nat, 2%nat. repeat split; try lia; try reflexivity. exists 2%nat, 2%nat, 1%nat. repeat split; try lia; reflexivity.
  - intros is js Hi Hj. apply in_range_inv2 in Hi, Hj. destruct Hi as (a & b & -> & Ha & Hb). destruct Hj as (c & d & -> & Hc & Hd).
    destruct a as [|[|a]], b as [|[|b]], c as [|[|c]], d as [|[|d]]; try lia; cbn; ring.
  - exists [0;0]%nat, [0;0]%nat. repeat split; try (repeat constructor; lia). cbn. lra.
Qed.
Lemma x_first_hamiltonian s : s <> 0 -> @hamiltonian RR (x_first s) [2; 2]%nat.
Proof.
  intros Hs. split; [|split; [reflexivity|split; [reflexivity|split]]].
  - split; [discriminate|]. unfold x_first. cbn [mlinked].
    exists 2%nat, 2%nat, 1%nat. repeat split; try lia; try reflexivity. exists 2%nat, 2%nat, 1%nat. repeat split; try lia; reflexivity.
  - intros is js Hi Hj. apply in_range_inv2 in Hi, Hj. destruct Hi as (a & b & -> & Ha & Hb). destruct Hj as (c & d & -> & Hc & Hd).
    destruct a as [|[|a]], b as [|[|b]], c as [|[|c]], d as [|[|d]]; try lia; cbn; ring.
  - exists [0;0]%nat, [1;0]%nat. repeat split; try (repeat constructor; lia). cbn. lra.
Qed.
Lemma total_z_diag i j : (i < 2)%nat -> (j < 2)%nat -> @opelem (@rs_scalar RR) total_z [i; j] [i; j] = xz 1 i i + xz 1 j j.
Proof. intros Hi Hj. destruct i as [|[|i]], j as [|[|j]]; try lia; cbn; ring. Qed.
Lemma x_first_diag s is : in_range [2; 2]%nat is -> @opelem (@rs_scalar RR) (x_first s) is is = 0.
Proof. intros Hi. apply in_range_inv2 in Hi. destruct Hi as (a & b & -> & Ha & Hb). destruct a as [|[|a]], b as [|[|b]]; try lia; cbn; ring. Qed.

Lemma kabs_real (x : R) : @kabs RR x = Rabs x.
Proof. unfold kabs. change (@kmod2 RR x) with (x * x). apply sqrt_Rsqr_abs. Qed.

Definition two_opt : options := mkOpt 5 (1 / 100) (-1) 1 (-1) false.
Lemma two_opt_keeps : keeps_all 1 two_opt.
Proof. split; [cbn; lia|right]. unfold tolerance_used. cbn [o_svd_tolerance two_opt]. destruct (Rlt_dec (-1) 0); [right; lra|lra]. Qed.

Lemma two_valid H N : @hamiltonian RR H [2; 2]%nat -> @hamiltonian RR N [2; 2]%nat -> valid_constrained 1 H N start00 [2; 2]%nat two_opt.
Proof.
  intros HH HN. destruct start_open as (Ho & _ & Hd & _). split; [exact HH|]. split; [exact HN|]. split; [exact Ho|]. split; [exact Hd|]. split; [cbn; lia|].
  split; [discriminate|]. split; [reflexivity|left; lra].
Qed.

(** H = - X X - Z Z has the ground energy -2, in the states with an even number of ones; with the constraint
    Z x 1 + 1 x Z = 0 the result is the best state with exactly one: energy 0 and no amplitude in 00 and 11; with the
    constraint = 1 the result is empty. *)
Theorem C74_case : exists (svd : @tensor (@rs_scalar RR) -> _) eigs, svd_contract svd /\ eigs_contract eigs /\ eigs_converges eigs /\
  valid_constrained 1 bell total_z start00 [2; 2]%nat two_opt /\
  (exists psi', minimize_with svd 1 eigs bell start00 two_opt total_z 0 None = Ok (psi', 0) /\ psi' <> [] /\
     amp psi' [0; 0]%nat = 0 /\ amp psi' [1; 1]%nat = 0 /\ weight [2; 2]%nat (amp psi') = 1 /\ energy bell psi' = 0) /\
  minimize_with svd 1 eigs bell start00 two_opt total_z 1 None = Ok ([], (10 ^ 28)).
Proof.
  destruct (@svd_contract_satisfiable RR) as (svd & Hsvd). exists svd, exact_eigs. destruct (@eigs_contract_satisfiable RR) as (E1 & E2).
  pose proof (two_valid bell total_z bell_hamiltonian total_z_hamiltonian) as HV.
  split; [exact Hsvd|]. split; [exact E1|]. split; [exact E2|]. split; [exact HV|].
  assert (Hadm : forall v i j, (i < 2)%nat -> (j < 2)%nat -> (@admissible_at RR total_z v [i; j] <-> Rabs (xz 1 i i + xz 1 j j - v) < 1 / 10 ^ 6)).
  { intros v i j Hi Hj. unfold admissible_at. rewrite total_z_diag by assumption. rewrite kabs_real. reflexivity. }
  assert (Hmil : 0 < 1 / 10 ^ 6 < 1).
  { split; [apply Rdiv_lt_0_compat; [lra|apply pow_lt; lra]|]. apply (Rmult_lt_reg_r (10 ^ 6)); [apply pow_lt; lra|]. unfold Rdiv. rewrite Rmult_assoc, Rinv_l by (apply pow_nonzero; lra). lra. }
  split.
  - destruct (C74_returns svd 1 Hsvd exact_eigs E1 bell total_z start00 _ two_opt 0 HV) as (psi' & E & HR).
    assert (Hne : psi' <> []).
    { apply (C74_some_state svd 1 Hsvd exact_eigs E1 bell total_z start00 _ two_opt 0 [0; 1]%nat psi' E HV eq_refl eq_refl E2); [repeat constructor; lia| |exact HR].
      apply Hadm; [lia|lia|]. cbn. replace (1 + -1 - 0) with 0 by ring. rewrite Rabs_R0. apply Hmil. }
    destruct (C74_two_sites svd 1 Hsvd exact_eigs E1 bell total_z start00 _ two_opt 0 psi' E HV eq_refl eq_refl HR Hne) as (p & P1 & P2 & P3 & P4 & P5).
    specialize (P5 two_opt_keeps).
    assert (Hz : forall i, (i < 2)%nat -> p [i; i] = 0).
    { intros i Hi. destruct (Req_dec (p [i; i]) 0) as [->|Hn]; [reflexivity|]. exfalso. assert (Hii : in_range [2; 2]%nat [i; i]) by (constructor; [exact Hi|constructor; [exact Hi|constructor]]). pose proof (P1 [i; i] Hii Hn) as Ha. apply Hadm in Ha; [|exact Hi|exact Hi].
      destruct i as [|[|i]]; [| |lia]; cbn in Ha; revert Ha; unfold Rabs; destruct (Rcase_abs _); lra. }
    assert (EE : E = 0).
    { rewrite bell_weight, !Hz in P2 by lia. rewrite bell_energy, !Hz in P3 by lia.
      specialize (P4 (fun is => if Nat.eqb (nth 0 is 0%nat) (nth 1 is 0%nat) then 0 else 1)). rewrite bell_weight, bell_energy in P4. cbn in P4.
      assert (Hx : E * (0 * 0 + 1 * 1 + 1 * 1 + 0 * 0) <= - (2 * 0 * 0 + 2 * 1 * 1 + 0 * 0 + 0 * 0 - 1 * 1 - 1 * 1)).
      { apply P4. intros is Hi Hn. apply in_range_inv2 in Hi. destruct Hi as (a & b & -> & Ha & Hb). apply Hadm; [exact Ha|exact Hb|].
        destruct a as [|[|a]], b as [|[|b]]; try lia; cbn in Hn |- *; try lra.
        - replace (1 + -1 - 0) with 0 by ring. rewrite Rabs_R0. apply Hmil.
        - replace (-1 + 1 - 0) with 0 by ring. rewrite Rabs_R0. apply Hmil. }
      pose proof (Rle_0_sqr (p [0; 1]%nat - p [1; 0]%nat)) as Hsq. unfold Rsqr in Hsq. lra. }
    rewrite EE in *. exists psi'. split; [exact HR|]. split; [exact Hne|]. rewrite !P5 by (repeat constructor; lia). split; [apply Hz; lia|]. split; [apply Hz; lia|].
    destruct (C74_constrained svd 1 Hsvd exact_eigs E1 bell total_z start00 _ two_opt 0 psi' 0 HV eq_refl HR Hne) as (_ & Hpd & _).
    split.
    + rewrite <- P2, !bell_weight. rewrite !P5 by (repeat constructor; lia). reflexivity.
    + unfold energy. rewrite Hpd, <- P3, !bell_energy. rewrite !P5 by (repeat constructor; lia). reflexivity.
  - apply (C74_no_state svd 1 Hsvd exact_eigs E1 bell total_z start00 _ two_opt 1 HV eq_refl eq_refl).
    intros is Hi Ha. apply in_range_inv2 in Hi. destruct Hi as (a & b & -> & Hx & Hy). apply Hadm in Ha; [|exact Hx|exact Hy].
    destruct a as [|[|a]], b as [|[|b]]; try lia; cbn in Ha; revert Ha; unfold Rabs; destruct (Rcase_abs _); lra.
Qed.

(** Found: only the diagonal of N counts.  For N = X x 1, whose diagonal is zero, the constraint <N> = 0 is not
    enforced: with H = - X x 1 the result has <N> = 1; and the constraint <N> = 1, which states of norm one satisfy,
    gives no state at all. *)
Theorem C74_offdiagonal_refuted (svd : @tensor (@rs_scalar RR) -> _) eigs : svd_contract svd -> eigs_contract eigs -> eigs_converges eigs ->
  let H := x_first (-1) in let N := x_first 1 in
  (exists psi', minimize_with svd 1 eigs H start00 two_opt N 0 None = Ok (psi', -1) /\ psi' <> [] /\ weight [2; 2]%nat (amp psi') = 1 /\ energy N psi' = 1) /\
  minimize_with svd 1 eigs H start00 two_opt N 1 None = Ok ([], 10 ^ 28) /\
  exists f, weight [2; 2]%nat f = 1 /\ energy_of N [2; 2]%nat f = 1.
Proof.
  intros Hsvd E1 E2 H N. pose proof (x_first_hamiltonian (-1) ltac:(lra)) as HH. pose proof (x_first_hamiltonian 1 ltac:(lra)) as HN. fold H in HH. fold N in HN.
  pose proof (two_valid H N HH HN) as HV.
  assert (Hen : forall s (f : list nat -> R), @energy_of RR (x_first s) [2; 2]%nat f = s * (2 * f [0;0]%nat * f [1;0]%nat + 2 * f [0;1]%nat * f [1;1]%nat)) by (intros s f; cbn; ring).
  assert (Hmil : 0 < 1 / 10 ^ 6 < 1).
  { split; [apply Rdiv_lt_0_compat; [lra|apply pow_lt; lra]|]. apply (Rmult_lt_reg_r (10 ^ 6)); [apply pow_lt; lra|]. unfold Rdiv. rewrite Rmult_assoc, Rinv_l by (apply pow_nonzero; lra). lra. }
  assert (Hadm : forall v is, in_range [2; 2]%nat is -> (@admissible_at RR N v is <-> Rabs v < 1 / 10 ^ 6)).
  { intros v is Hi. unfold admissible_at, N. rewrite x_first_diag by exact Hi. rewrite kabs_real. change (@ksub (@rs_scalar RR) 0 v) with (0 - v). replace (0 - v) with (- v) by ring. rewrite Rabs_Ropp. reflexivity. }
  assert (H0 : forall is, in_range [2; 2]%nat is -> @admissible_at RR N 0 is) by (intros is Hi; apply Hadm; [exact Hi|rewrite Rabs_R0; apply Hmil]).
  split; [|split].
  - destruct (C74_returns svd 1 Hsvd eigs E1 H N start00 _ two_opt 0 HV) as (psi' & E & HR).
    assert (Hne : psi' <> []).
    { apply (C74_some_state svd 1 Hsvd eigs E1 H N start00 _ two_opt 0 [0; 1]%nat psi' E HV eq_refl eq_refl E2); [repeat constructor; lia|apply H0; repeat constructor; lia|exact HR]. }
    destruct (C74_two_sites svd 1 Hsvd eigs E1 H N start00 _ two_opt 0 psi' E HV eq_refl eq_refl HR Hne) as (p & P1 & P2 & P3 & P4 & P5). specialize (P5 two_opt_keeps).
    destruct (C74_constrained svd 1 Hsvd eigs E1 H N start00 _ two_opt 0 psi' E HV eq_refl HR Hne) as (_ & Hpd & _).
    unfold H in P3, P4. rewrite Hen in P3. rewrite bell_weight in P2.
    specialize (P4 (fun is => if Nat.eqb (nth 1 is 0%nat) 0 then 1 else 0) (fun is Hi _ => H0 is Hi)). rewrite Hen, bell_weight in P4. cbn in P4.
    assert (E = -1) as ->.
    { pose proof (Rle_0_sqr (p [0; 0]%nat - p [1; 0]%nat)) as S1. pose proof (Rle_0_sqr (p [0; 1]%nat - p [1; 1]%nat)) as S2. unfold Rsqr in S1, S2. lra. }
    exists psi'. split; [exact HR|]. split; [exact Hne|]. split.
    + rewrite <- P2, bell_weight. rewrite !P5 by (repeat constructor; lia). reflexivity.
    + unfold energy, N. rewrite Hpd, Hen. rewrite !P5 by (repeat constructor; lia). lra.
  - apply (C74_no_state svd 1 Hsvd eigs E1 H N start00 _ two_opt 1 HV eq_refl eq_refl). intros is Hi Ha. apply Hadm in Ha; [|exact Hi]. rewrite Rabs_R1 in Ha. lra.
  - exists (fun is => if Nat.eqb (nth 1 is 0%nat) 0 then / sqrt 2 else 0). unfold N. rewrite bell_weight, Hen. cbn.
    assert (Hs : / sqrt 2 * / sqrt 2 = / 2) by (rewrite <- Rinv_mult, sqrt_sqrt by lra; reflexivity). split; lra.
Qed.
End Cases.
