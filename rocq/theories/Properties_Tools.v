(** * C54, C55, C56: imaginary time loop, entropy, flags *)
From Coq Require Import Reals Lra Bool List Arith ZArith Lia Ring Field Psatz.
From Verif Require Import Scalar RScal Tensor TensorFacts ToolsModel.
Import ListNotations.
Local Open Scope R_scope.

(** ** C55: entropy.  The weights are p_i = l_i / sum l. *)
Definition total (l : list R) : R := fold_right Rplus 0 l.
Definition shannon (l : list R) : R := fold_right (fun x s => - (x / total l * ln (x / total l)) + s) 0 l.

Lemma fold_left_plus l a : fold_left Rplus l a = a + total l.
Proof. revert a. induction l as [|x l IH]; intros a; cbn; [ring|]. rewrite IH. unfold total. ring. Qed.

Lemma total_pos l : l <> [] -> Forall (fun x => 0 < x) l -> 0 < total l.
Proof.
  intros Hn H. assert (G : 0 <= total l /\ (l <> [] -> 0 < total l)); [|apply G; exact Hn].
  clear Hn. induction H as [|x l Hx Hl (IH1 & IH2)]; cbn; [split; [lra|congruence]|]. unfold total in *. split; [lra|]. intros _. lra.
Qed.

Lemma total_ge l x : Forall (fun x => 0 <= x) l -> In x l -> x <= total l.
Proof.
  induction 1 as [|y l Hy Hl IH]; intros Hin; [destruct Hin|]. cbn.
  assert (0 <= fold_right Rplus 0 l) by (clear -Hl; induction Hl; cbn; lra).
  destruct Hin as [->|Hin]; [lra|]. specialize (IH Hin). unfold total in IH. lra.
Qed.

Lemma entropy_pos_value l : l <> [] -> Forall (fun x => 0 < x) l -> entropy l = Some (shannon l).
Proof.
  intros Hn Hp. pose proof (total_pos l Hn Hp) as Ht. unfold entropy. rewrite fold_left_plus, Rplus_0_l, Rabs_right by lra.
  unfold shannon. generalize dependent (total l). intros t Ht. clear Hn.
  assert (G : forall a, fold_left (fun s x => match s with None => None | Some s => if Req_EM_T t 0 then None
       else match plogp (Rabs x / t) with Some y => Some (s - y) | None => None end end) l (Some a) =
     Some (a + fold_right (fun x s => - (x / t * ln (x / t)) + s) 0 l)).
  { induction Hp as [|x l Hx Hl IH]; intros a; cbn [fold_left fold_right]; [f_equal; ring|].
    destruct (Req_EM_T t 0); [lra|]. rewrite Rabs_right by lra. unfold plogp.
    assert (0 < x / t) by (apply Rdiv_lt_0_compat; lra). destruct (Req_EM_T (x / t) 0); [lra|]. rewrite IH. f_equal. ring. }
  rewrite G. f_equal. ring.
Qed.

Lemma ln_le_sub x : 0 < x -> ln x <= x - 1.
Proof.
  intros H. pose proof (exp_ineq1_le (ln x)) as E. rewrite exp_ln in E by exact H. lra.
Qed.

Lemma ln_lt_0 x : 0 < x < 1 -> ln x < 0.
Proof. intros (H1 & H2). rewrite <- ln_1. apply ln_increasing; assumption. Qed.

(** C55. For positive weights the entropy is -sum p ln p; it is not negative, at most the logarithm of the
    number of weights, and zero only for a single weight. *)
Theorem C55_entropy l : l <> [] -> Forall (fun x => 0 < x) l ->
  exists s, entropy l = Some s /\ s = shannon l /\ 0 <= s <= ln (INR (length l)) /\ (s = 0 <-> length l = 1%nat).
Proof.
  intros Hn Hp. pose proof (total_pos l Hn Hp) as Ht. exists (shannon l). split; [apply entropy_pos_value; assumption|].
  split; [reflexivity|].
  set (t := total l) in *.
  assert (Hle : forall x, In x l -> 0 < x / t <= 1).
  { intros x Hx. rewrite Forall_forall in Hp. pose proof (Hp x Hx). split; [apply Rdiv_lt_0_compat; lra|].
    apply Rmult_le_reg_r with t; [exact Ht|]. unfold Rdiv. rewrite Rmult_assoc, Rinv_l by lra. rewrite Rmult_1_r, Rmult_1_l.
    apply total_ge; [|exact Hx]. apply Forall_forall. intros y Hy. left. apply Hp. exact Hy. }
  assert (Hterm : forall x, In x l -> 0 <= - (x / t * ln (x / t))).
  { intros x Hx. destruct (Hle x Hx) as (A & B). destruct (Req_dec (x / t) 1) as [->|]; [rewrite ln_1; lra|].
    pose proof (ln_lt_0 (x / t) ltac:(lra)). nra. }
  assert (Hnn : 0 <= shannon l).
  { unfold shannon. fold t. clearbody t. clear -Hterm. induction l as [|x l IH]; cbn [fold_right]; [lra|].
    pose proof (Hterm x (or_introl eq_refl)). specialize (IH (fun y Hy => Hterm y (or_intror Hy))). lra. }
  split; [split; [exact Hnn|]|split].
  - (* sum p ln (1/(n p)) <= sum (1/n - p) = 0 *)
    set (n := INR (length l)). assert (Hnp : 0 < n) by (apply lt_0_INR; destruct l; [congruence|cbn; lia]).
    assert (G : forall m, (forall x, In x m -> In x l) ->
      fold_right (fun x s => - (x / t * ln (x / t)) + s) 0 m <= total m / t * ln n + (INR (length m) / n - total m / t)).
    { induction m as [|x m IH]; intros Hm; cbn [fold_right length total].
      - change (INR 0) with 0. unfold Rdiv. lra.
      - specialize (IH (fun y Hy => Hm y (or_intror Hy))). destruct (Hle x (Hm x (or_introl eq_refl))) as (A & B).
        assert (L : - (x / t * ln (x / t)) <= x / t * ln n + (/ n - x / t)).
        { assert (0 < n * (x / t)) by nra.
          assert (0 < x) by (rewrite Forall_forall in Hp; apply Hp, Hm; left; reflexivity).
          pose proof (ln_le_sub (/ (n * (x / t))) ltac:(apply Rinv_0_lt_compat; assumption)) as E.
          rewrite ln_Rinv, ln_mult in E by assumption.
          assert (X : x / t * (- (ln n + ln (x / t))) <= x / t * (/ (n * (x / t)) - 1)) by (apply Rmult_le_compat_l; lra).
          replace (x / t * (/ (n * (x / t)) - 1)) with (/ n - x / t) in X by (field; repeat split; lra).
          lra. }
        rewrite S_INR. unfold total in *.
        replace ((x + fold_right Rplus 0 m) / t) with (x / t + fold_right Rplus 0 m / t) by (field; lra).
        replace ((INR (length m) + 1) / n) with (INR (length m) / n + / n) by (field; lra). lra. }
    specialize (G l (fun y Hy => Hy)). fold t in G. fold n in G.
    unfold shannon. fold t. replace (t / t) with 1 in G by (field; lra). replace (n / n) with 1 in G by (field; lra). lra.
  - intros H0. destruct l as [|x [|y l]]; [congruence|reflexivity|exfalso].
    assert (Hx : x / t < 1).
    { assert (0 < y) by (apply Forall_inv_tail, Forall_inv in Hp; exact Hp).
      assert (Hpt : Forall (fun x => 0 <= x) (y :: l)) by (apply Forall_forall; intros z Hz; left; rewrite Forall_forall in Hp; apply Hp; right; exact Hz).
      pose proof (total_ge (y :: l) y Hpt (or_introl eq_refl)).
      assert (Et : t = x + total (y :: l)) by reflexivity.
      apply Rmult_lt_reg_r with t; [exact Ht|]. unfold Rdiv. rewrite Rmult_assoc, Rinv_l by lra. lra. }
    destruct (Hle x (or_introl eq_refl)) as (A & _).
    pose proof (ln_lt_0 (x / t) ltac:(lra)) as L.
    assert (P : 0 < - (x / t * ln (x / t))) by nra.
    assert (R0 : 0 <= fold_right (fun x s => - (x / t * ln (x / t)) + s) 0 (y :: l)).
    { assert (Hterm' : forall z, In z (y :: l) -> 0 <= - (z / t * ln (z / t))) by (intros z Hz; apply Hterm; right; exact Hz).
      clear -Hterm'. revert Hterm'. generalize (y :: l). intros m. induction m as [|z m IH]; intros H; cbn [fold_right]; [lra|].
      pose proof (H z (or_introl eq_refl)). specialize (IH (fun w Hw => H w (or_intror Hw))). lra. }
    unfold shannon in H0. fold t in H0. change (fold_right (fun x s => - (x / t * ln (x / t)) + s) 0 (x :: y :: l)) with
      (- (x / t * ln (x / t)) + fold_right (fun x s => - (x / t * ln (x / t)) + s) 0 (y :: l)) in H0. lra.
  - intros H1. destruct l as [|x [|y l]]; try discriminate. unfold shannon, t, total in *. cbn [fold_right] in *.
    replace (x / (x + 0)) with 1 by (field; lra). rewrite ln_1. ring.
Qed.

(** C55. DEFECT: a zero weight makes the result NaN, although 0 log 0 = 0. *)
Theorem C55_zero_weight_refuted l : In 0 l -> entropy l = None.
Proof.
  intros Hin. unfold entropy. cbv zeta. generalize (Rabs (fold_left Rplus l 0)). intros t.
  assert (N : forall m, fold_left (fun s x => match s with None => None | Some s => if Req_EM_T t 0 then None
       else match plogp (Rabs x / t) with Some y => Some (s - y) | None => None end end) m None = None).
  { induction m; [reflexivity|exact IHm]. }
  assert (G : forall a, fold_left (fun s x => match s with None => None | Some s => if Req_EM_T t 0 then None
       else match plogp (Rabs x / t) with Some y => Some (s - y) | None => None end end) l a = None).
  { induction l as [|x l IH]; intros a; [destruct Hin|]. cbn [fold_left]. destruct Hin as [->|Hin].
    - destruct a as [a|]; [|apply N]. destruct (Req_EM_T t 0); [apply N|]. rewrite Rabs_R0. unfold plogp, Rdiv. rewrite Rmult_0_l.
      destruct (Req_EM_T 0 0); [apply N|congruence].
    - apply IH. exact Hin. }
  apply G.
Qed.

(** A Schmidt vector with a zero value, and one without *)
Example C55_case : In 0 [1 / 2; 0; 1 / 2] /\ Forall (fun x => 0 < x) [1 / 2; 1 / 4; 1 / 4].
Proof. split; [cbn; auto|repeat constructor; lra]. Qed.

(** ** C56: flags *)
Definition flag_keys : list nat := snd init_flags.

(** The value of key [k] after the calls [l]: that of the last SetFlag, or of its creation; [n] keys exist
    before. *)
Fixpoint flag_value (k n : nat) (v : option R) (l : list flag_call) : option R :=
  match l with
  | [] => v
  | CreateKey x :: l' => flag_value k (S n) (if Nat.eqb n k then Some x else v) l'
  | SetFlag k' x :: l' => flag_value k n (if Nat.eqb k' k then Some x else v) l'
  end.
(** All SetFlag calls use keys that exist at that time. *)
Fixpoint keys_exist (n : nat) (l : list flag_call) : Prop :=
  match l with
  | [] => True
  | CreateKey _ :: l' => keys_exist (S n) l'
  | SetFlag k _ :: l' => (k < n)%nat /\ keys_exist n l'
  end.

Lemma nth_replace_R k v f j : nth_error (replace_R k v f) j = if Nat.eqb j k then (if Nat.ltb k (length f) then Some v else None) else nth_error f j.
Proof.
  revert k j. induction f as [|x f IH]; intros k j; cbn [replace_R length].
  - replace (replace_R k v []) with (@nil R) by (destruct k; reflexivity). destruct (Nat.eqb_spec j k); destruct k, j; reflexivity.
  - destruct k as [|k], j as [|j]; cbn [nth_error Nat.eqb replace_R]; try reflexivity. rewrite IH. reflexivity.
Qed.
Lemma length_replace_R k v f : length (replace_R k v f) = length f.
Proof. revert k. induction f as [|x f IH]; intros [|k]; cbn; try reflexivity. rewrite IH. reflexivity. Qed.

Lemma flag_run_gen l f : keys_exist (length f) l ->
  exists f', fold_left (fun r c => bind r (fun f => flag_exec f c)) l (Ok f) = Ok f' /\
    forall k, nth_error f' k = flag_value k (length f) (nth_error f k) l.
Proof.
  revert f. induction l as [|c l IH]; intros f H; cbn [fold_left keys_exist flag_value] in *; [exists f; auto|].
  destruct c as [v|k v]; cbn [bind flag_exec].
  - cbn [create_key fst]. destruct (IH (f ++ [v])) as (f' & E & Hf).
    { rewrite app_length, Nat.add_1_r. exact H. }
    exists f'. split; [exact E|]. intros k. rewrite Hf, app_length, Nat.add_1_r. f_equal.
    destruct (Nat.eqb_spec (length f) k) as [<-|Hne].
    + rewrite nth_error_app2, Nat.sub_diag by lia. reflexivity.
    + destruct (Nat.lt_ge_cases k (length f)) as [Hk|Hk]; [apply nth_error_app1; exact Hk|].
      rewrite (proj2 (nth_error_None f k)) by lia. apply nth_error_None. rewrite app_length. cbn. lia.
  - destruct H as (Hk & H). unfold flag_set. destruct (Nat.ltb_spec k (length f)); [|lia].
    destruct (IH (replace_R k v f)) as (f' & E & Hf); [rewrite length_replace_R; exact H|].
    exists f'. split; [exact E|]. intros j. rewrite Hf, length_replace_R. f_equal. rewrite nth_replace_R.
    rewrite (Nat.eqb_sym j k). destruct (Nat.eqb_spec k j); [|reflexivity]. destruct (Nat.ltb_spec k (length f)); [reflexivity|lia].
Qed.

(** C56. The library creates different keys, with the documented defaults. *)
Theorem C56_defaults : NoDup flag_keys /\ length flag_keys = length default_values /\
  forall i, (i < length default_values)%nat -> flag_get (fst init_flags) (nth i flag_keys 0%nat) = Ok (nth i default_values 0).
Proof.
  assert (E1 : flag_keys = seq 0 15) by reflexivity. assert (E2 : fst init_flags = default_values) by reflexivity.
  rewrite E1, E2. split; [apply seq_NoDup|]. split; [reflexivity|]. intros i Hi. rewrite seq_nth by exact Hi. cbn [Nat.add].
  unfold flag_get. rewrite (nth_error_nth' default_values 0 Hi). reflexivity.
Qed.

(** C56. The default of every key, in the order in which src/tools/flags.cc creates them. *)
Theorem C56_default_table : let f := fst init_flags in
  flag_get f 0 = Ok 1 (* MPS_USE_BLOCK_SVD *) /\ flag_get f 1 = Ok 0 (* MPS_DEBUG_TRUNCATION *) /\
  flag_get f 2 = Ok (/ 2 ^ 52) (* MPS_TRUNCATION_TOLERANCE, the spacing of doubles at 1 *) /\
  flag_get f 3 = Ok 0 (* MPS_DEBUG_TROTTER *) /\ flag_get f 4 = Ok 0 (* MPS_DEBUG_ARNOLDI *) /\
  flag_get f 5 = Ok 2 (* MPS_ARNOLDI_SIMPLIFY_INTERNAL_SWEEPS *) /\
  flag_get f 6 = Ok 4 (* MPS_ARNOLDI_SIMPLIFY_FINAL_SWEEPS *) /\ flag_get f 7 = Ok 0 (* MPS_DEBUG_SIMPLIFY *) /\
  flag_get f 8 = Ok 12 (* MPS_SIMPLIFY_MAX_SWEEPS *) /\ flag_get f 9 = Ok (/ 10 ^ 14) (* MPS_SIMPLIFY_TOLERANCE *) /\
  flag_get f 10 = Ok 1 (* MPS_SIMPLIFY_ALGORITHM: single site *) /\ flag_get f 11 = Ok 0 (* MPS_DEBUG_SOLVE *) /\
  flag_get f 12 = Ok 1 (* MPS_SOLVE_ALGORITHM: single site *) /\ flag_get f 13 = Ok (/ 10 ^ 10) (* MPS_SOLVE_TOLERANCE *) /\
  flag_get f 14 = Ok 1 (* MPS_ITEBD_EXPECTED_METHOD: canonical *) /\ forall k, (15 <= k)%nat -> flag_get f k = Abort.
Proof.
  cbv zeta. assert (E2 : fst init_flags = default_values) by reflexivity. rewrite E2.
  repeat (split; [reflexivity|]). intros k Hk. unfold flag_get.
  rewrite (proj2 (nth_error_None default_values k)) by (cbn; lia). reflexivity.
Qed.

(** C56. After any history get() returns the value last set, or the one given at creation. *)
Theorem C56_history l : keys_exist (length default_values) l ->
  exists f, flag_run l = Ok f /\
    forall k, flag_get f k = match flag_value k (length default_values) (nth_error default_values k) l with Some v => Ok v | None => Abort end.
Proof.
  intros H. destruct (flag_run_gen l default_values H) as (f & E & Hf). exists f. split; [exact E|].
  intros k. unfold flag_get. rewrite Hf. reflexivity.
Qed.

(** C56. A new key was not in use before, and creating it changes no other value. *)
Theorem C56_create_key f v : let '(f', k) := create_key f v in
  flag_get f k = Abort /\ flag_get f' k = Ok v /\ forall k', k' <> k -> flag_get f' k' = flag_get f k'.
Proof.
  cbn. unfold flag_get. split; [|split].
  - rewrite (proj2 (nth_error_None f (length f))) by lia. reflexivity.
  - rewrite nth_error_app2, Nat.sub_diag by lia. reflexivity.
  - intros k' Hne. destruct (Nat.lt_ge_cases k' (length f)) as [Hk|Hk]; [rewrite nth_error_app1 by exact Hk; reflexivity|].
    rewrite (proj2 (nth_error_None f k')) by lia. rewrite (proj2 (nth_error_None (f ++ [v]) k')) by (rewrite app_length; cbn; lia). reflexivity.
Qed.

(** C56. Unknown keys are rejected. *)
Theorem C56_unknown_key f k v : (length f <= k)%nat -> flag_get f k = Abort /\ flag_set f k v = Abort.
Proof.
  intros H. unfold flag_get, flag_set. rewrite (proj2 (nth_error_None f k)) by lia.
  destruct (Nat.ltb_spec k (length f)); [lia|]. auto.
Qed.

Example C56_case : keys_exist (length default_values) [SetFlag 2 (1 / 8); CreateKey 7; SetFlag 15 3; SetFlag 2 0].
Proof. cbn. lia. Qed.

(** ** C54: evolve_itime *)
Section Itime.
Context {State : Type}.
Variable apply : R -> nat -> State -> State.
Variable canonical : State -> State.
Variable energy entr : State -> R.
Notation step := (itime_step apply).
Notation evolve := (evolve_itime apply canonical energy entr).

Lemma evolve_gen method n m psi Es Ss :
  let r := Nat.iter n (fun '(psi, E, T) =>
      let psi := Nat.iter m (step method) psi in let psi := canonical psi in
      (psi, E ++ [energy psi], T ++ [entr psi])) (psi, Es, Ss) in
  fst (fst r) = Nat.iter n (fun psi => canonical (Nat.iter m (step method) psi)) psi /\
  length (snd (fst r)) = (n + length Es)%nat /\ length (snd r) = (n + length Ss)%nat.
Proof.
  cbv zeta. induction n as [|n IH]; [auto|]. cbn [Nat.iter nat_rect]. unfold Nat.iter in *. cbn [nat_rect].
  destruct (nat_rect _ (psi, Es, Ss) _ n) as [[p E] T] eqn:Er. cbn [fst snd] in *. destruct IH as (A & B & C).
  rewrite A, !app_length. cbn [length]. split; [reflexivity|]. lia.
Qed.

(** C54. When the reporting interval divides nsteps (or is zero, meaning one), exactly nsteps steps are
    taken, with a canonical form after each interval; energies and entropies get one entry per interval
    and one for the initial state.
    MISSING: intervals that do not divide nsteps, see the refutation. *)
Theorem C54_steps_partial method nsteps deltan psi :
  let m := if Nat.eqb deltan 0 then 1%nat else deltan in
  (Nat.divide m nsteps) ->
  let r := evolve method nsteps deltan psi in
  exists n, (n * m = nsteps)%nat /\
    fst (fst r) = Nat.iter n (fun psi => canonical (Nat.iter m (step method) psi)) (canonical psi) /\
    length (snd (fst r)) = (n + 1)%nat /\ length (snd r) = (n + 1)%nat.
Proof.
  cbv zeta. intros (n & Hn). exists n. split; [lia|]. unfold evolve_itime.
  set (m := if Nat.eqb deltan 0 then 1%nat else deltan) in *.
  assert (Hm : (0 < m)%nat) by (unfold m; destruct (Nat.eqb_spec deltan 0); lia).
  assert (E : ((nsteps + m - 1) / m = n)%nat).
  { rewrite Hn. symmetry. apply Nat.div_unique with (m - 1)%nat; [lia|]. nia. }
  rewrite E. destruct (evolve_gen method n m (canonical psi) [energy (canonical psi)] [entr (canonical psi)]) as (A & B & C).
  cbv zeta in A, B, C |- *. rewrite A, B, C. cbn [length]. auto.
Qed.

(** C54. In general the number of steps is nsteps rounded up to a multiple of the interval. *)
Theorem C54_steps_rounded method nsteps deltan psi : (forall x, canonical x = x) ->
  let m := if Nat.eqb deltan 0 then 1%nat else deltan in
  exists n, (nsteps <= n < nsteps + m)%nat /\ Nat.divide m n /\
    fst (fst (evolve method nsteps deltan psi)) = Nat.iter n (step method) psi.
Proof.
  cbv zeta. intros Hc. set (m := if Nat.eqb deltan 0 then 1%nat else deltan).
  assert (Hm : (0 < m)%nat) by (unfold m; destruct (Nat.eqb_spec deltan 0); lia).
  exists ((nsteps + m - 1) / m * m)%nat. pose proof (Nat.div_mod (nsteps + m - 1) m ltac:(lia)) as D.
  pose proof (Nat.mod_upper_bound (nsteps + m - 1) m ltac:(lia)) as U.
  split; [nia|]. split; [exists ((nsteps + m - 1) / m)%nat; reflexivity|].
  unfold evolve_itime. fold m.
  destruct (evolve_gen method ((nsteps + m - 1) / m) m (canonical psi) [energy (canonical psi)] [entr (canonical psi)]) as (A & _ & _).
  cbv zeta in A |- *. rewrite A, Hc. generalize ((nsteps + m - 1) / m)%nat. intros n. clear -Hc. induction n as [|n IH]; [reflexivity|].
  cbn [Nat.iter nat_rect Nat.mul]. unfold Nat.iter in *. cbn [nat_rect]. rewrite IH, Hc.
  generalize (n * m)%nat. intros q. clear. induction m as [|m IH]; [reflexivity|]. cbn [nat_rect Nat.add]. rewrite IH. reflexivity.
Qed.

End Itime.

(** C54. DEFECT: whenever the interval does not divide nsteps, the number of steps differs from nsteps:
    with a state that counts the layers, the count is wrong. *)
Theorem C54_steps_refuted nsteps deltan method : deltan <> 0%nat -> ~ Nat.divide deltan nsteps ->
  let count := fun (c : R) (site : nat) (n : nat) => S n in
  let r := evolve_itime count (fun n => n) (fun _ => 0) (fun _ => 0) method nsteps deltan 0%nat in
  fst (fst r) <> (nsteps * length (itime_layers method))%nat.
Proof.
  intros Hd Hn count r.
  destruct (C54_steps_rounded count (fun n => n) (fun _ => 0) (fun _ => 0) method nsteps deltan 0%nat ltac:(reflexivity)) as (n & _ & Hdiv & E).
  fold r in E. destruct (Nat.eqb_spec deltan 0); [contradiction|]. rewrite E.
  assert (G : forall k, Nat.iter k (itime_step count method) 0%nat = (k * length (itime_layers method))%nat).
  { assert (G1 : forall l x, fold_left (fun psi p => count (fst p) (snd p) psi) l x = (length l + x)%nat).
    { induction l as [|p l IH]; intros x; cbn [fold_left length]; [reflexivity|]. rewrite IH. unfold count. lia. }
    induction k as [|k IH]; [reflexivity|]. change (Nat.iter (S k) (itime_step count method) 0%nat) with (itime_step count method (Nat.iter k (itime_step count method) 0%nat)).
    rewrite IH. unfold itime_step. rewrite G1. cbn [Nat.mul]. reflexivity. }
  rewrite G. intros H. apply Hn. assert (n = nsteps); [|subst; exact Hdiv].
  assert (0 < length (itime_layers method))%nat by (destruct method as [|[|method]]; cbn; lia). nia.
Qed.

Example C54_case : 2%nat <> 0%nat /\ ~ Nat.divide 2 3.
Proof. split; [lia|]. intros (k & H). lia. Qed.

(** C54. In each method the coefficients of the layers on either sublattice add up to one step. *)
Definition weight (site : nat) (l : list (R * nat)) : R :=
  fold_right (fun p s => if Nat.eqb (snd p) site then fst p + s else s) 0 l.
Theorem C54_layer_weights method : weight 0 (itime_layers method) = 1 /\ weight 1 (itime_layers method) = 1.
Proof.
  destruct method as [|[|method]]; cbn [itime_layers weight fold_right snd fst Nat.eqb nth FR_param]; split; try (field; lra); lra.
Qed.
