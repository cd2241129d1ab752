(** Fermat's little theorem for base 2 and a Pocklington primality certificate.
    Only used to exhibit one large prime (finding F1). *)
From Coq Require Import ZArith Znumtheory Zpow_facts Lia.
Open Scope Z_scope.

(** Binomial coefficients by Pascal's rule. *)
Fixpoint binom (n k : nat) : Z :=
  match n, k with
  | _, O => 1
  | O, S _ => 0
  | S n', S k' => binom n' k' + binom n' (S k')
  end.

Lemma binom_0 n : binom n 0 = 1. Proof. destruct n; reflexivity. Qed.
Lemma binom_above n : forall k, (n < k)%nat -> binom n k = 0.
Proof.
  induction n as [|n IH]; intros [|k] H; try lia; cbn [binom]; [reflexivity|].
  rewrite !IH by lia. reflexivity.
Qed.
Lemma binom_diag n : binom n n = 1.
Proof. induction n as [|n IH]; [reflexivity|]. cbn [binom]. rewrite IH, binom_above by lia. reflexivity. Qed.

Lemma binom_absorb n : forall k,
  Z.of_nat (S k) * binom (S n) (S k) = Z.of_nat (S n) * binom n k.
Proof.
  induction n as [|n IH]; intros k.
  - destruct k as [|k]; [reflexivity|]. cbn [binom]. destruct k; cbn; lia.
  - destruct k as [|k].
    + cbn [binom]. rewrite binom_0. pose proof (IH 0%nat) as H. rewrite binom_0 in H.
      cbn [binom] in H. rewrite binom_0 in H. lia.
    + pose proof (IH k) as H1. pose proof (IH (S k)) as H2.
      change (binom (S (S n)) (S (S k))) with (binom (S n) (S k) + binom (S n) (S (S k))).
      change (binom (S n) (S k)) with (binom n k + binom n (S k)) in *.
      lia.
Qed.

Fixpoint row_sum (n m : nat) : Z :=
  match m with O => binom n 0 | S m' => row_sum n m' + binom n (S m') end.

Lemma row_sum_pascal n m : row_sum (S n) (S m) = row_sum n (S m) + row_sum n m.
Proof.
  induction m as [|m IH].
  - cbn [row_sum]. cbn [binom]. rewrite !binom_0. lia.
  - change (row_sum (S n) (S (S m))) with (row_sum (S n) (S m) + binom (S n) (S (S m))).
    rewrite IH. cbn [row_sum]. cbn [binom]. lia.
Qed.

Lemma row_sum_pow n : row_sum n n = 2 ^ Z.of_nat n.
Proof.
  induction n as [|n IH]; [reflexivity|].
  rewrite row_sum_pascal. cbn [row_sum]. rewrite binom_above, IH by lia.
  rewrite Nat2Z.inj_succ, Z.pow_succ_r by lia. lia.
Qed.

Lemma prime_divides_binom p k : prime (Z.of_nat (S p)) -> (S k < S p)%nat ->
  (Z.of_nat (S p) | binom (S p) (S k)).
Proof.
  intros Hp Hk. pose proof (binom_absorb p k) as H.
  assert (D : (Z.of_nat (S p) | Z.of_nat (S k) * binom (S p) (S k))) by (exists (binom p k); lia).
  apply prime_mult in D; [|exact Hp]. destruct D as [D|D]; [|exact D].
  apply Z.divide_pos_le in D; lia.
Qed.

Lemma row_sum_mod p m : prime (Z.of_nat (S p)) -> (m < S p)%nat ->
  row_sum (S p) m mod Z.of_nat (S p) = 1 mod Z.of_nat (S p).
Proof.
  intros Hp. induction m as [|m IH]; intros Hm.
  - cbn [row_sum]. rewrite binom_0. reflexivity.
  - cbn [row_sum]. destruct (prime_divides_binom p m Hp Hm) as [c Hc]. rewrite Hc.
    rewrite Z.mod_add by lia. apply IH; lia.
Qed.

(** Fermat's little theorem for base 2. *)
Lemma fermat_2 p : prime p -> 2 ^ p mod p = 2 mod p.
Proof.
  intros Hp. assert (Hp1 : 1 < p) by (destruct Hp; lia).
  destruct (Z.to_nat p) as [|n] eqn:E; [lia|].
  assert (Ep : p = Z.of_nat (S n)) by lia.
  rewrite Ep in *. rewrite <- row_sum_pow. cbn [row_sum]. rewrite binom_diag.
  rewrite Zplus_mod, row_sum_mod by (assumption || lia). rewrite <- Zplus_mod. reflexivity.
Qed.

Lemma pow_mod_1 a e n : 1 < n -> 0 <= e -> a mod n = 1 -> a ^ e mod n = 1.
Proof.
  intros Hn He H. rewrite Zpower_mod by lia. rewrite H, Z.pow_1_l by lia. apply Z.mod_1_l; lia.
Qed.

(** If q is a prime factor of n-1 with (q+1)^2 > n, 2^(n-1) = 1 mod n and
    2^((n-1)/q) - 1 is prime to n, then n is prime. *)
Theorem pocklington2 n q k :
  1 < n -> prime q -> n - 1 = q * k -> 0 < k -> n < (q + 1) * (q + 1) -> n mod 2 = 1 ->
  2 ^ (n - 1) mod n = 1 -> Z.gcd (2 ^ k - 1) n = 1 -> prime n.
Proof.
  intros Hn Hq Hqk Hk Hsq Hodd Hfer Hg.
  assert (Hq1 : 1 < q) by (destruct Hq; lia).
  assert (Hall : forall p, prime p -> (p | n) -> q + 1 <= p).
  { intros p Hp Hpn. assert (Hp1 : 1 < p) by (destruct Hp; lia).
    assert (Hp2 : p <> 2).
    { intros ->. apply Z.mod_divide in Hpn; lia. }
    assert (Hf : 2 ^ (p - 1) mod p = 1).
    { pose proof (fermat_2 p Hp) as F.
      replace p with (1 + (p - 1)) in F at 1 by lia.
      rewrite Z.pow_add_r, Z.pow_1_r in F by lia.
      assert (D : (p | 2 * (2 ^ (p - 1) - 1))).
      { apply Z.mod_divide; [lia|]. replace (2 * (2 ^ (p - 1) - 1)) with (2 * 2 ^ (p - 1) - 2) by ring.
        rewrite Zminus_mod, F, Z.sub_diag, Z.mod_0_l by lia. reflexivity. }
      apply prime_mult in D; [|exact Hp]. destruct D as [D|D].
      - apply Z.divide_pos_le in D; lia.
      - destruct D as [c Hc]. replace (2 ^ (p - 1)) with (1 + c * p) by lia.
        rewrite Z.mod_add, Z.mod_1_l by lia. reflexivity. }
    set (b := 2 ^ k).
    assert (Hbq : b ^ q mod p = 1).
    { unfold b. rewrite <- Z.pow_mul_r by lia. replace (k * q) with (n - 1) by lia.
      destruct Hpn as [c Hc].
      pose proof (Z.div_mod (2 ^ (n - 1)) n ltac:(lia)) as E. rewrite Hfer in E.
      rewrite E, Hc. replace (c * p * (2 ^ (c * p - 1) / (c * p)) + 1)
        with (1 + (c * (2 ^ (c * p - 1) / (c * p))) * p) by ring.
      rewrite Z.mod_add, Z.mod_1_l by lia. reflexivity. }
    assert (Hbp : b ^ (p - 1) mod p = 1).
    { unfold b. rewrite <- Z.pow_mul_r by lia. rewrite Z.mul_comm, Z.pow_mul_r by lia.
      apply pow_mod_1; [lia|lia|exact Hf]. }
    assert (Hb1 : b mod p <> 1).
    { intros H. assert (D : (p | 2 ^ k - 1)).
      { apply Z.mod_divide; [lia|]. fold b. rewrite Zminus_mod, H, (Z.mod_1_l p) by lia. reflexivity. }
      assert (D2 : (p | 1)) by (rewrite <- Hg; apply Z.gcd_greatest; assumption).
      apply Z.divide_1_r_nonneg in D2; lia. }
    (* q divides p - 1, otherwise gcd(q, p-1) = 1 and b = 1 mod p *)
    destruct (Znumtheory.Zdivide_dec q (p - 1)) as [Hd|Hnd].
    { apply Z.divide_pos_le in Hd; lia. }
    exfalso. apply Hb1.
    assert (Hcop : rel_prime q (p - 1)) by (apply prime_rel_prime; assumption).
    apply rel_prime_bezout in Hcop as [u v Huv].
    (* u q + v (p-1) = 1; shift to non-negative multipliers *)
    set (t := Z.abs u + Z.abs v).
    set (u' := u + t * (p - 1)). set (w := t * q - v).
    assert (Hu' : 0 <= u') by (unfold u', t; nia).
    assert (Hw : 0 <= w) by (unfold w, t; nia).
    assert (Hid : u' * q = 1 + w * (p - 1)) by (unfold u', w; clear - Huv; lia).
    assert (P1 : b ^ (u' * q) mod p = 1).
    { rewrite Z.mul_comm, Z.pow_mul_r by lia. apply pow_mod_1; [lia|lia|exact Hbq]. }
    assert (P2 : b ^ (w * (p - 1)) mod p = 1).
    { rewrite Z.mul_comm, Z.pow_mul_r by lia. apply pow_mod_1; [lia|lia|exact Hbp]. }
    rewrite Hid, Z.pow_add_r, Z.pow_1_r in P1; [|lia|apply Z.mul_nonneg_nonneg; lia].
    rewrite Zmult_mod, P2, Z.mul_1_r, Zmod_mod in P1. exact P1. }
  destruct (prime_dec n) as [Hpn|Hnp]; [exact Hpn|exfalso].
  (* a composite n has a prime factor with square at most n *)
  assert (Hex : forall m, 1 < m -> exists p, prime p /\ (p | m)).
  { intros m Hm. pattern m. revert m Hm.
    assert (G : forall m, 0 <= m -> 1 < m -> exists p, prime p /\ (p | m)).
    { intros m Hm0. pattern m. apply Z_lt_induction; [|exact Hm0].
      intros x IH Hx. destruct (prime_dec x) as [Hx'|Hx'].
      - exists x; split; [exact Hx'|apply Z.divide_refl].
      - apply not_prime_divide in Hx' as [d [Hd1 Hd2]]; [|exact Hx].
        destruct (IH d ltac:(lia) ltac:(lia)) as [p [Hp Hpd]].
        exists p; split; [exact Hp|]. eapply Z.divide_trans; eassumption. }
    intros m Hm. apply G; lia. }
  apply not_prime_divide in Hnp as [d [Hd [e He]]]; [|exact Hn].
  destruct (Hex d ltac:(lia)) as [p1 [Hp1 Hpd1]].
  destruct (Hex e ltac:(nia)) as [p2 [Hp2 Hpd2]].
  pose proof (Hall p1 Hp1 ltac:(rewrite He; apply Z.divide_mul_r; exact Hpd1)).
  pose proof (Hall p2 Hp2 ltac:(rewrite He; apply Z.divide_mul_l; exact Hpd2)).
  apply Z.divide_pos_le in Hpd1; [|lia]. apply Z.divide_pos_le in Hpd2; [|nia]. nia.
Qed.

(** The same with all powers reduced modulo n, so that the hypotheses compute. *)
Lemma pocklington2_mod n q k :
  1 < n -> prime q -> n - 1 = q * k -> 0 < k -> n < (q + 1) * (q + 1) -> n mod 2 = 1 ->
  Zpow_mod 2 (n - 1) n = 1 -> Z.gcd (Zpow_mod 2 k n - 1) n = 1 -> prime n.
Proof.
  intros Hn Hq Hqk Hk Hsq Hodd Hfer Hg.
  rewrite Zpow_mod_correct in Hfer, Hg by lia.
  apply (pocklington2 n q k); try assumption.
  pose proof (Z.div_mod (2 ^ k) n ltac:(lia)) as E.
  replace (2 ^ k - 1) with ((2 ^ k mod n - 1) + (2 ^ k / n) * n) by lia.
  rewrite Z.gcd_comm, Z.gcd_add_mult_diag_r, Z.gcd_comm. exact Hg.
Qed.
