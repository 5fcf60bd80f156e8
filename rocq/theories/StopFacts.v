(** * A loop that ends when two successive errors meet a condition *)
From Coq Require Import Reals List Arith ZArith Lia Bool.
From Verif Require Import Scalar Tensor StopSpec.

Lemma turned_S k z : turned k (- z) = turned (S k) z.
Proof. unfold turned. rewrite Nat.even_succ, <- Nat.negb_even. destruct (Nat.even k); cbn; lia. Qed.

Section Loop.
Context {A X : Type}.
Variable out : X -> A.
Variable body : X -> Z -> result (X * R).
Variable stop : R -> R -> bool.
Variable ends : R -> R -> Prop.
Hypothesis Hends : forall a b, stop a b = true <-> ends a b.
(** [b]: the direction changes after the last sweep, too *)
Variable b : bool.

Fixpoint loop (n : nat) (x : X) (z : Z) (e : R) : result (A * Z * R) :=
  match n with
  | O => Ok (out x, z, e)
  | S n => bind (body x z) (fun '(x1, e1) => if stop e e1 then Ok (out x1, if b then (- z)%Z else z, e1) else loop n x1 (- z)%Z e1)
  end.

Lemma loop_ends n : forall x z e P s e', loop n x z e = Ok (P, s, e') ->
  (exists j, (0 < j <= n)%nat /\ (exists P0 s0 ep, loop (j - 1) x z e = Ok (P0, s0, ep) /\ ends ep e') /\
     (forall i, (0 < i < j)%nat -> exists P1 s1 e1 P0 s0 ep, loop i x z e = Ok (P1, s1, e1) /\ loop (i - 1) x z e = Ok (P0, s0, ep) /\ ~ ends ep e1) /\
     s = turned (if b then j else j - 1) z /\ forall m, (j <= m)%nat -> loop m x z e = Ok (P, s, e')) \/
  ((forall i, (0 < i <= n)%nat -> exists P1 s1 e1 P0 s0 ep, loop i x z e = Ok (P1, s1, e1) /\ loop (i - 1) x z e = Ok (P0, s0, ep) /\ ~ ends ep e1) /\ s = turned n z).
Proof.
  induction n as [|n IH]; intros x z e P s e' H.
  - right. split; [intros i Hi; lia|]. cbn in H. injection H as _ <- _. reflexivity.
  - cbn [loop] in H. destruct (body x z) as [(x1 & e1)|] eqn:E; [|discriminate]. cbn [bind] in H. destruct (stop e e1) eqn:Es.
    + left. exists 1%nat. apply Hends in Es. injection H as <- <- <-. split; [lia|]. split; [exists (out x), z, e; split; [reflexivity|exact Es]|].
      split; [intros i Hi; lia|]. split; [destruct b; reflexivity|].
      intros m Hm. destruct m as [|m]; [lia|]. cbn [loop]. rewrite E. cbn [bind]. apply Hends in Es. rewrite Es. reflexivity.
    + assert (HN : ~ ends e e1) by (intros HE; apply Hends in HE; congruence).
      assert (HS : forall k, loop (S k) x z e = loop k x1 (- z) e1) by (intros k; cbn [loop]; rewrite E; cbn [bind]; rewrite Es; reflexivity).
      assert (HI : forall q, (forall i, (0 < i <= q)%nat -> exists P1 s1 e2 P0 s0 ep, loop i x1 (- z) e1 = Ok (P1, s1, e2) /\ loop (i - 1) x1 (- z) e1 = Ok (P0, s0, ep) /\ ~ ends ep e2) ->
         forall i, (0 < i <= S q)%nat -> exists P1 s1 e2 P0 s0 ep, loop i x z e = Ok (P1, s1, e2) /\ loop (i - 1) x z e = Ok (P0, s0, ep) /\ ~ ends ep e2).
      { intros q HH i Hi. destruct i as [|[|i]]; [lia| |].
        - exists (out x1), (- z)%Z, e1, (out x), z, e. rewrite HS. split; [reflexivity|]. split; [reflexivity|exact HN].
        - destruct (HH (S i) ltac:(lia)) as (P1 & s1 & e2 & P0 & s0 & ep & E1 & E2 & E3). exists P1, s1, e2, P0, s0, ep. rewrite HS. split; [exact E1|].
          replace (S (S i) - 1)%nat with (S i) by lia. rewrite HS. replace i with (S i - 1)%nat by lia. split; [exact E2|exact E3]. }
      destruct (IH x1 (- z)%Z e1 P s e' H) as [(j & Hj & (P0 & s0 & ep & E0 & Hep) & Hno & Hs & Hm)|(Hno & Hs)].
      * left. exists (S j). split; [lia|]. split; [exists P0, s0, ep; replace (S j - 1)%nat with (S (j - 1)) by lia; rewrite HS; split; assumption|].
        split; [|split].
        -- intros i Hi. destruct j as [|j]; [lia|]. apply (HI j); [|lia]. intros i' Hi'. apply Hno. lia.
        -- rewrite Hs, turned_S. f_equal. destruct b; lia.
        -- intros m Hmm. destruct m as [|m]; [lia|]. rewrite HS. apply Hm. lia.
      * right. split; [|rewrite Hs; apply turned_S]. apply HI. exact Hno.
Qed.

Lemma loop_spec (run : nat -> result (A * Z * R)) x z e : (forall n, (0 < n)%nat -> run n = loop n x z e) ->
  ends_exactly_when run e ends (fun j => turned (if b then j else j - 1) z) (fun n => turned n z).
Proof.
  intros HR n P s e' Hn H. rewrite HR in H by exact Hn.
  assert (Hnot : forall i, (0 < i)%nat -> (exists P1 s1 e1 P0 s0 ep, loop i x z e = Ok (P1, s1, e1) /\ loop (i - 1) x z e = Ok (P0, s0, ep) /\ ~ ends ep e1) -> ~ met run e ends i).
  { intros i Hi (P1 & s1 & e1 & P0 & s0 & ep & E1 & E2 & E3) (P2 & s2 & e2 & e3 & HB & E4 & E5). rewrite HR in E4 by exact Hi. rewrite E1 in E4. injection E4 as <- <- <-.
    apply E3. replace ep with e3; [exact E5|]. destruct HB as [(-> & ->)|(Hi1 & Pb & sb & Eb)].
    - cbn in E2. congruence.
    - rewrite HR in Eb by lia. congruence. }
  destruct (loop_ends n x z e P s e' H) as [(j & Hj & (P0 & s0 & ep & E0 & Hep) & Hno & Hs & Hm)|(Hno & Hs)].
  - left. exists j. split; [exact Hj|]. split; [|split; [intros i Hi; apply Hnot; [lia|apply Hno; exact Hi]|split; [exact Hs|intros m Hmm; rewrite HR by lia; apply Hm; exact Hmm]]].
    exists P, s, e', ep. split; [|split; [rewrite HR by lia; apply Hm; lia|exact Hep]].
    destruct (Nat.eq_dec j 1) as [->|Hj1]; [left; split; [reflexivity|cbn in E0; congruence]|right]. split; [lia|]. exists P0, s0. rewrite HR by lia. exact E0.
  - right. split; [intros j Hj; apply Hnot; [lia|apply Hno; exact Hj]|exact Hs].
Qed.
End Loop.
