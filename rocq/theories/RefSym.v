(** * Convertibility is symmetric *)

From Verif Require Import Base ModelSubst ModelReduce SpecTerm SpecConv RefMachine LibMono RefMono RefSafe.

(** the same pair or the swapped one *)
Definition es (p q : tm * tm) : Prop := q = p \/ q = (snd p, fst p).

Lemma es_refl p : es p p.
Proof. left; reflexivity. Qed.

Lemma combine_swap (us : list tm) : forall vs, Forall2 es (combine us vs) (combine vs us).
Proof. induction us as [|u us IH]; intros [|v vs]; cbn; constructor; auto. right. reflexivity. Qed.

Lemma Forall2_rev' {A B} (R : A -> B -> Prop) l l' : Forall2 R l l' -> Forall2 R (rev l) (rev l').
Proof. induction 1; cbn; auto. apply Forall2_app; auto. Qed.

Lemma r_step_swap eta t u :
  match r_step eta t u, r_step eta u t with
  | Some ps, Some qs => Forall2 es ps qs
  | None, None => True
  | _, _ => False
  end.
Proof.
  assert (Hs : forall p q, es (p, q) (q, p)) by (right; reflexivity).
  unfold r_step. destruct (lam_body t) eqn:Et, (lam_body u) eqn:Eu; auto.
  - destruct eta; auto. repeat constructor.
  - destruct eta; auto. repeat constructor.
  - destruct t, u; try discriminate; auto.
    + rewrite (Nat.eqb_sym c0 c). destruct (c =? c0); auto.
    + rewrite (Nat.eqb_sym n0 n). destruct (n =? n0); auto.
    + destruct (spine (App t1 t2) []) as [f us], (spine (App u1 u2) []) as [g vs].
      rewrite (Nat.eqb_sym (length vs)). destruct (_ =? _); auto.
      apply Forall2_rev'. constructor; auto using combine_swap.
Qed.

Section Sym.
  Variable sg : sig.

  Lemma r_whnf_heap n t h :
    (exists t', forall h, r_whnf sg n t h = Ok (t', h)) \/ r_whnf sg n t h = Fuel.
  Proof.
    pose proof (r_whnf_safe sg n t h) as Hs. unfold r_whnf, r_whnf_, r_fresh in *. red in Hs.
    destruct (bind _ _ _) as [[a s]| | |]; try contradiction; eauto.
  Qed.

  Lemma r_conv_loop_S n t u cns : r_conv_loop sg (S n) ((t, u) :: cns) =
    if tm_eq_dec t u then r_conv_loop sg n cns
    else bind (r_whnf sg n t) (fun t => bind (r_whnf sg n u) (fun u =>
      match r_step (sg_eta sg) t u with None => ret false | Some new => r_conv_loop sg n (new ++ cns) end)).
  Proof. reflexivity. Qed.
  Lemma r_conv_loop_swap n : forall cns cns' h, Forall2 es cns cns' ->
    r_conv_loop sg n cns h = r_conv_loop sg n cns' h.
  Proof.
    induction n as [|n IH]; intros cns cns' h H; [reflexivity|].
    destruct H as [|[t u] [t' u'] cns cns' Hp H]; [reflexivity|]. rewrite !r_conv_loop_S.
    destruct Hp as [[= -> ->]|[= -> ->]]; cbn [fst snd].
    - destruct (tm_eq_dec t u); auto. unfold bind.
      destruct (r_whnf_heap n t h) as [(t1 & E1)|E1]; rewrite E1; [|reflexivity].
      destruct (r_whnf_heap n u h) as [(u1 & E2)|E2]; rewrite E2; [|reflexivity].
      destruct (r_step _ t1 u1) as [ps|]; [|reflexivity]. apply IH. apply Forall2_app; [|assumption].
      clear. induction ps; constructor; auto using es_refl.
    - destruct (tm_eq_dec t u), (tm_eq_dec u t); try congruence; auto. unfold bind.
      destruct (r_whnf_heap n t h) as [(t1 & E1)|E1]; destruct (r_whnf_heap n u h) as [(u1 & E2)|E2]; rewrite E1, E2; try reflexivity.
      + rewrite E1. pose proof (r_step_swap (sg_eta sg) t1 u1) as Hs.
        destruct (r_step _ t1 u1), (r_step _ u1 t1); try contradiction; [|reflexivity].
        apply IH. apply Forall2_app; assumption.
      + rewrite E1. reflexivity.
  Qed.

  Lemma r_convertible_sym n t u h : r_convertible sg n t u h = r_convertible sg n u t h.
  Proof. apply r_conv_loop_swap. constructor; [right; reflexivity|constructor]. Qed.
End Sym.
