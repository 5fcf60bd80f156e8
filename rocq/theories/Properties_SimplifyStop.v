(** * C62: when simplify_obc ends *)
From Coq Require Import Reals Lra Bool List Arith ZArith Lia.
From Verif Require Import Scalar RScal Tensor Spec MpsModel CanonModel SweepModel FormModel SimplifyModel.
Import ListNotations.
Local Open Scope K_scope.

Section Stop.
Context {RS : RScal}.
Variable svd : tensor -> tensor * list R * tensor.
Variable flag : R.

Lemma dec_sense s : sdk (snd (sweeper_dec s)) = sdk s.
Proof. unfold sweeper_dec. destruct (sk s =? skN s)%Z; reflexivity. Qed.

Lemma single_sense n : forall s P lf s' P' lf', single_sweep svd flag n s P lf = Ok (s', P', lf') -> sdk s' = sdk s.
Proof.
  induction n as [|n IH]; intros s P lf s' P' lf'; cbn [single_sweep]; [discriminate|].
  destruct (single_step svd flag s P lf) as [(P1 & lf1)|]; cbn [bind]; [|discriminate]. pose proof (dec_sense s) as Hd.
  destruct (sweeper_dec s) as ([] & s1); cbn [snd] in Hd; intros E; [rewrite <- Hd; exact (IH _ _ _ _ _ _ E)|]. inversion E. subst. exact Hd.
Qed.
Lemma double_sense Dmax tol n : forall s P lf s' P' lf', double_sweep svd flag Dmax tol n s P lf = Ok (s', P', lf') -> sdk s' = sdk s.
Proof.
  induction n as [|n IH]; intros s P lf s' P' lf'; cbn [double_sweep]; [discriminate|].
  destruct (double_step svd flag Dmax tol s P lf) as [(P1 & lf1)|]; cbn [bind]; [|discriminate]. pose proof (dec_sense s) as Hd.
  destruct (sweeper_dec s) as (b & s1); cbn [snd] in Hd. destruct (sweeper_is_last s1); intros E; [|rewrite <- Hd; exact (IH _ _ _ _ _ _ E)]. inversion E. subst. exact Hd.
Qed.
Lemma sweep_sense single Dmax tol s P lf s' P' lf' : obc_sweep svd flag single Dmax tol s P lf = Ok (s', P', lf') -> sdk s' = sdk s.
Proof. unfold obc_sweep. destruct single; [apply single_sense|apply double_sense]. Qed.

Section Loop.
Variables (single : bool) (Dmax : Z) (tol tolerance normQ2 : R).
Notation loop := (obc_loop svd flag single Dmax tol tolerance normQ2).

(** One iteration *)
Definition one (s : sweeper) (P : mps) (lf : lform) : result (sweeper * mps * lform * R * R) :=
  bind (obc_sweep svd flag single Dmax tol s P lf) (fun '(s, P, lf) =>
  bind (site_at P (sweeper_site s)) (fun t =>
    if Req_EM_T normQ2 0 then Abort else
    Ok (sweeper_flip s, P, lf, sqrt (Rabs (1 - kabs (tensor_scprod t t) / normQ2)), kabs (tensor_scprod t t)))).

Lemma loop_one n s P lf err np : loop (S n) s P lf err np = bind (one s P lf) (fun '(s1, P1, lf1, e1, n1) =>
  if obc_stop tolerance err e1 then Ok (s1, P1, e1, n1) else loop n s1 P1 lf1 e1 n1).
Proof.
  cbn [obc_loop]. unfold one. destruct (obc_sweep svd flag single Dmax tol s P lf) as [((s1 & P1) & lf1)|]; cbn [bind]; [|reflexivity].
  destruct (site_at P1 (sweeper_site s1)) as [t|]; cbn [bind]; [|reflexivity]. destruct (Req_EM_T normQ2 0); reflexivity.
Qed.

Lemma one_sense s P lf s1 P1 lf1 e1 n1 : one s P lf = Ok (s1, P1, lf1, e1, n1) -> sdk s1 = (- sdk s)%Z.
Proof.
  unfold one. destruct (obc_sweep svd flag single Dmax tol s P lf) as [((s2 & P2) & lf2)|] eqn:E; cbn [bind]; [|discriminate].
  destruct (site_at P2 (sweeper_site s2)) as [t|]; cbn [bind]; [|discriminate]. destruct (Req_EM_T normQ2 0); [discriminate|]. intros E1. inversion E1.
  cbn. rewrite (sweep_sense _ _ _ _ _ _ _ _ _ E). reflexivity.
Qed.

Lemma loop_stop n : forall m s P lf err np s1 P1 e1 n1 s2 P2 e2 n2, loop (S n) s P lf err np = Ok (s1, P1, e1, n1) ->
  loop (S (S n)) s P lf err np = Ok (s2, P2, e2, n2) -> obc_stop tolerance e1 e2 = true ->
  loop (S (S n) + m) s P lf err np = Ok (s2, P2, e2, n2).
Proof.
  induction n as [|n IH]; intros m s P lf err np s1 P1 e1 n1 s2 P2 e2 n2 H1 H2 Hs.
  - cbn [Nat.add]. rewrite loop_one in *. destruct (one s P lf) as [((((sa & Pa) & la) & ea) & na)|]; cbn [bind] in *; [|discriminate].
    destruct (obc_stop tolerance err ea); [exact H2|]. cbn [obc_loop] in H1. inversion H1. subst. rewrite loop_one in *.
    destruct (one s1 P1 la) as [((((sb & Pb) & lb) & eb) & nb)|]; cbn [bind] in *; [|discriminate].
    destruct (obc_stop tolerance e1 eb) eqn:Es; [exact H2|]. cbn [obc_loop] in H2. inversion H2. subst. congruence.
  - cbn [Nat.add]. rewrite loop_one in *. destruct (one s P lf) as [((((sa & Pa) & la) & ea) & na)|]; cbn [bind] in *; [|discriminate].
    destruct (obc_stop tolerance err ea); [exact H2|]. exact (IH m _ _ _ _ _ _ _ _ _ _ _ _ _ H1 H2 Hs).
Qed.

Lemma loop_reason n : forall s P lf err np s1 P1 e1 n1 s2 P2 e2 n2, loop (S n) s P lf err np = Ok (s1, P1, e1, n1) ->
  loop (S (S n)) s P lf err np = Ok (s2, P2, e2, n2) ->
  sdk s2 = (- sdk s1)%Z \/
  (s2, P2, e2, n2) = (s1, P1, e1, n1) /\ exists j ep, (j <= n)%nat /\ loop (S j) s P lf err np = Ok (s1, P1, e1, n1) /\ obc_stop tolerance ep e1 = true /\
    (j = 0%nat -> ep = err) /\ (forall j', j = S j' -> exists s' P' n', loop (S j') s P lf err np = Ok (s', P', ep, n')).
Proof.
  induction n as [|n IH]; intros s P lf err np s1 P1 e1 n1 s2 P2 e2 n2 H1 H2.
  - rewrite loop_one in *. destruct (one s P lf) as [((((sa & Pa) & la) & ea) & na)|] eqn:E1; cbn [bind] in *; [|discriminate].
    destruct (obc_stop tolerance err ea) eqn:Es.
    + right. split; [congruence|]. inversion H1. subst. exists 0%nat, err. split; [lia|]. split; [rewrite loop_one, E1; cbn [bind]; rewrite Es; reflexivity|].
      split; [exact Es|]. split; [reflexivity|]. discriminate.
    + cbn [obc_loop] in H1. inversion H1. subst. rewrite loop_one in H2.
      destruct (one s1 P1 la) as [((((sb & Pb) & lb) & eb) & nb)|] eqn:E2; cbn [bind] in *; [|discriminate]. left.
      apply one_sense in E2. destruct (obc_stop tolerance e1 eb); inversion H2; subst; exact E2.
  - rewrite loop_one in H1, H2. destruct (one s P lf) as [((((sa & Pa) & la) & ea) & na)|] eqn:E1; cbn [bind] in *; [|discriminate].
    destruct (obc_stop tolerance err ea) eqn:Es.
    + right. split; [congruence|]. inversion H1. subst. exists 0%nat, err. split; [lia|]. split; [rewrite loop_one, E1; cbn [bind]; rewrite Es; reflexivity|].
      split; [exact Es|]. split; [reflexivity|]. discriminate.
    + destruct (IH _ _ _ _ _ _ _ _ _ _ _ _ _ H1 H2) as [H|(H & j & ep & Hj & HL & Hst & H0 & HS)]; [left; exact H|right]. split; [exact H|].
      exists (S j), ep. split; [lia|]. split; [rewrite loop_one, E1; cbn [bind]; rewrite Es; exact HL|]. split; [exact Hst|]. split; [discriminate|].
      intros j' Hj'. injection Hj' as <-. destruct j as [|j].
      * rewrite (H0 eq_refl). exists sa, Pa, na. rewrite loop_one, E1. cbn [bind]. rewrite Es. reflexivity.
      * destruct (HS j eq_refl) as (s' & P' & n' & E'). exists s', P', n'. rewrite loop_one, E1. cbn [bind]. rewrite Es. exact E'.
Qed.
End Loop.

Section Call.
Variables (algorithm : bool) (tolerance : R) (P : mps) (w : list K) (Q : list mps) (sense : Z) (normalize : bool) (Dmax : Z) (tol : R).
Notation simplify sweeps := (simplify_obc svd flag algorithm tolerance P w Q sense sweeps normalize Dmax tol).

(** The end of the function *)
Definition finish (r : sweeper * mps * R * R) : result (mps * Z * R * R) :=
  let '(s, P, err, normP2) := r in
  if normalize then
    if Req_EM_T normP2 0 then Abort else
    bind (site_at P (sweeper_site s)) (fun t =>
      Ok (replace_nth (Z.to_nat (sweeper_site s)) (tscale (rinj (/ sqrt normP2)%R) t) P, (- sweeper_sense s)%Z, err, normP2))
  else Ok (P, (- sweeper_sense s)%Z, err, normP2).

Lemma simplify_loop : (forall n, simplify (S n) = Abort) \/
  exists single normQ2 s lf, forall n, simplify (S n) = bind (obc_loop svd flag single Dmax tol tolerance normQ2 (S n) s P lf 1 0) finish.
Proof.
  unfold simplify_obc. cbn [Nat.eqb]. destruct (new_sweeper (Z.of_nat (length P)) (- sense)) as [s|]; cbn [bind]; [|left; reflexivity].
  destruct (lform_new w Q P (sweeper_site s)) as [lf|]; cbn [bind]; [|left; reflexivity]. destruct (lf_norm2_v lf) as [v|]; cbn [bind]; [|left; reflexivity].
  right. exists ((Dmax =? 0)%Z && algorithm), (sqrt (kabs v) * sqrt (kabs v))%R, s, lf. intros n. reflexivity.
Qed.

Lemma finish_inv r P' s' e' n' : finish r = Ok (P', s', e', n') -> exists s1 P1, r = (s1, P1, e', n') /\ s' = (- sdk s1)%Z.
Proof.
  destruct r as (((s & P1) & e) & n). unfold finish. destruct normalize.
  - destruct (Req_EM_T n 0); [discriminate|]. destruct (site_at P1 (sweeper_site s)); cbn [bind]; [|discriminate]. intros E. inversion E. subst. exists s, P1. split; reflexivity.
  - intros E. inversion E. subst. exists s, P'. split; reflexivity.
Qed.

(** The condition under which the sweeps end: the error fell below MPS_SIMPLIFY_TOLERANCE, or by less than 1e-5 of the previous one *)
Definition ends (before after : R) : Prop := (after < tolerance)%R \/ (before - after < 1 / 100000 * Rabs before)%R.
Lemma ends_spec a b : obc_stop tolerance a b = true <-> ends a b.
Proof. unfold obc_stop, ends, Rltb. destruct (Rlt_dec (a - b) (1 / 100000 * Rabs a)), (Rlt_dec b tolerance); cbn; split; try tauto; try discriminate. Qed.

(** Once that happens, any larger number of sweeps gives the same result. *)
Theorem C62_stops n n' r1 e1 c1 P2 s2 e2 c2 : (0 < n < n')%nat -> simplify n = Ok (r1, e1, c1) -> simplify (n + 1)%nat = Ok (P2, s2, e2, c2) -> ends e1 e2 ->
  simplify n' = Ok (P2, s2, e2, c2).
Proof.
  intros Hn H1 H2 He. destruct r1 as (P1 & s1). destruct n as [|n]; [lia|]. replace (S n + 1)%nat with (S (S n)) in H2 by lia.
  destruct simplify_loop as [HA|(sg & nq & s & lf & HL)]; [rewrite HA in H1; discriminate|]. rewrite HL in H1, H2.
  destruct (obc_loop svd flag sg Dmax tol tolerance nq (S n) s P lf 1 0) as [ra|] eqn:Ea; cbn [bind] in H1; [|discriminate].
  destruct (obc_loop svd flag sg Dmax tol tolerance nq (S (S n)) s P lf 1 0) as [rb|] eqn:Eb; cbn [bind] in H2; [|discriminate].
  destruct (finish_inv _ _ _ _ _ H1) as (sa & Pa & -> & _). destruct (finish_inv _ _ _ _ _ H2) as (sb & Pb & -> & _).
  replace n' with (S (S n + (n' - S (S n)))) by lia. rewrite HL. apply ends_spec in He.
  assert (E := loop_stop sg Dmax tol tolerance nq n (n' - S (S n)) _ _ _ _ _ _ _ _ _ _ _ _ _ Ea Eb He). cbn [Nat.add] in E |- *. rewrite E. exact H2.
Qed.

(** The same if it happens in the first sweep; the error before it counts as one. *)
Theorem C62_stops_first n' P1 s1 e1 c1 : (0 < n')%nat -> simplify 1 = Ok (P1, s1, e1, c1) -> ends 1 e1 -> simplify n' = Ok (P1, s1, e1, c1).
Proof.
  intros Hn H1 He. destruct n' as [|n]; [lia|]. destruct simplify_loop as [HA|(sg & nq & s & lf & HL)]; [rewrite HA in H1; discriminate|].
  rewrite HL in *. rewrite loop_one in *. destruct (one sg Dmax tol nq s P lf) as [((((sa & Pa) & la) & ea) & na)|]; cbn [bind] in *; [|discriminate].
  apply ends_spec in He. destruct (obc_stop tolerance 1 ea) eqn:Es; [exact H1|]. cbn [obc_loop bind] in H1. destruct (finish_inv _ _ _ _ _ H1) as (sb & Pb & E & _).
  inversion E. subst. congruence.
Qed.

(** It ends for no other reason: one more sweep either goes back in the other direction, or is not made because the condition
    was met after some sweep number j. *)
Theorem C62_goes_on n P1 s1 e1 c1 P2 s2 e2 c2 : (0 < n)%nat -> simplify n = Ok (P1, s1, e1, c1) -> simplify (n + 1)%nat = Ok (P2, s2, e2, c2) ->
  s2 = (- s1)%Z \/
  (P2, s2, e2, c2) = (P1, s1, e1, c1) /\
  exists j, (0 < j <= n)%nat /\ simplify j = Ok (P1, s1, e1, c1) /\
    (j = 1%nat /\ ends 1 e1 \/ (1 < j)%nat /\ forall P0 s0 e0 c0, simplify (j - 1)%nat = Ok (P0, s0, e0, c0) -> ends e0 e1).
Proof.
  intros Hn H1 H2. destruct n as [|n]; [lia|]. replace (S n + 1)%nat with (S (S n)) in H2 by lia.
  destruct simplify_loop as [HA|(sg & nq & s & lf & HL)]; [rewrite HA in H1; discriminate|]. rewrite HL in H1, H2.
  destruct (obc_loop svd flag sg Dmax tol tolerance nq (S n) s P lf 1 0) as [ra|] eqn:Ea; cbn [bind] in H1; [|discriminate].
  destruct (obc_loop svd flag sg Dmax tol tolerance nq (S (S n)) s P lf 1 0) as [rb|] eqn:Eb; cbn [bind] in H2; [|discriminate].
  destruct (finish_inv _ _ _ _ _ H1) as (sa & Pa & -> & ->). destruct (finish_inv _ _ _ _ _ H2) as (sb & Pb & -> & ->).
  destruct (loop_reason sg Dmax tol tolerance nq n _ _ _ _ _ _ _ _ _ _ _ _ _ Ea Eb) as [Hs|(E & j & ep & Hj & Ej & Hst & H0 & HS)]; [left; rewrite Hs; reflexivity|right].
  inversion E. subst. split; [rewrite H1 in H2; inversion H2; reflexivity|]. exists (S j). split; [lia|]. split; [rewrite HL, Ej; exact H1|].
  apply ends_spec in Hst. destruct j as [|j]; [left; split; [reflexivity|]; rewrite (H0 eq_refl) in Hst; exact Hst|right]. split; [lia|].
  intros P0 s0 e0 c0 E0. replace (S (S j) - 1)%nat with (S j) in E0 by lia. destruct (HS j eq_refl) as (s' & P' & n' & E'). rewrite HL, E' in E0. cbn [bind] in E0.
  destruct (finish_inv _ _ _ _ _ E0) as (sc & Pc & Ec & _). inversion Ec. subst. exact Hst.
Qed.
End Call.
End Stop.
