(** Decimal output. *)
From Coq Require Import Ascii String ZArith NArith Bool Lia.
From Coq Require Import List.
From Verif Require Import Res BMap Str Fmt SpecShow ShowProofs.
Import ListNotations.

Lemma fmt_digits_spec f : forall n acc,
  (n < 2 ^ N.of_nat f)%N -> (0 < n)%N \/ (0 < f)%nat ->
  forall g, (n < 2 ^ N.of_nat g)%N -> fmt_digits f n acc = digits_fuel g n ++ acc.
Proof.
  induction f as [|f IH]; intros n acc Hf Hp g Hg.
  - change (2 ^ N.of_nat 0)%N with 1%N in Hf. lia.
  - cbn [fmt_digits].
    assert (E := N.div_eucl_spec n 10). assert (E2 : (n mod 10 < 10)%N) by (apply N.mod_lt; lia).
    unfold N.modulo in E2. destruct (N.div_eucl n 10) as [q r] eqn:Ed. cbn [snd] in E2.
    assert (Hq : (n / 10 = q)%N) by (unfold N.div; rewrite Ed; reflexivity).
    assert (Hr : (n mod 10 = r)%N) by (unfold N.modulo; rewrite Ed; reflexivity).
    destruct g as [|g].
    + change (2 ^ N.of_nat 0)%N with 1%N in Hg.
      assert (n = 0)%N as -> by lia. assert (q = 0 /\ r = 0)%N as [-> ->] by lia. reflexivity.
    + cbn [digits_fuel]. destruct (N.ltb_spec n 10).
      * assert (q = 0 /\ r = n)%N as [-> ->] by lia. reflexivity.
      * destruct q as [|q]; [lia|]. rewrite Hq, Hr.
        rewrite Nat2N.inj_succ, N.pow_succ_r' in Hf, Hg.
        rewrite (IH _ _) with (g := g); [|lia..]. rewrite <- app_assoc. reflexivity.
Qed.

Lemma fmt_nat_decimal n : fmt_nat n = decimal n.
Proof.
  unfold fmt_nat, decimal. assert (H := size_nat_gt n).
  rewrite fmt_digits_spec with (g := N.size_nat n); [apply app_nil_r| |lia|lia].
  rewrite Nat2N.inj_succ, N.pow_succ_r'. lia.
Qed.

Lemma fmt_int_show z : fmt_int z = show_int z.
Proof.
  unfold fmt_int, show_int. destruct z as [|p|p]; cbn [Z.ltb Z.compare]; rewrite ?fmt_nat_decimal; reflexivity.
Qed.
