(** * Errors of the reference inference are faults of terms (C87) *)

From Verif Require Import Base ModelTerm ModelGctx ModelCommand ModelSubst ModelReduce ModelInfer
  SpecTerm SpecConv SpecRed SpecTyping SpecBidir SpecProcess SpecFault RefMachine LibMono RefMono RefSafe RefSound RefStuck RefInfer RefComplete.

Definition okf {A} (m : RM A) (P : A -> Prop) (Q : kerror -> Prop) : Prop :=
  forall h, match m h with Ok (a, _) => P a | Err e => Q e | _ => True end.
Lemma okf_ret {A} (a : A) (P : A -> Prop) Q : P a -> okf (ret a) P Q.
Proof. intros H h. exact H. Qed.
Lemma okf_fail {A} e (P : A -> Prop) (Q : kerror -> Prop) : Q e -> okf (fail e) P Q.
Proof. intros H h. exact H. Qed.
Lemma okf_nofuel {A} (P : A -> Prop) Q : okf nofuel P Q.
Proof. intros h. exact I. Qed.
Lemma okf_ok_or {A} (x : option A) e (P : A -> Prop) (Q : kerror -> Prop) : (forall a, x = Some a -> P a) -> (x = None -> Q e) -> okf (ok_or x e) P Q.
Proof. intros H1 H2. destruct x; [apply okf_ret|apply okf_fail]; auto. Qed.
Lemma okf_bind {A B} (m : RM A) (k : A -> RM B) P P' (Q Q' : kerror -> Prop) : okf m P' Q' -> (forall e, Q' e -> Q e) -> (forall a, P' a -> okf (k a) P Q) -> okf (bind m k) P Q.
Proof. intros Hm He Hk h. unfold bind. specialize (Hm h). destruct (m h) as [[a h']| | |]; auto. apply Hk. exact Hm. Qed.

Section Fault.
  Variable sg : sig.
  Notation conv := (conv sg).

  Lemma okf_whnf n T : okf (r_whnf sg n T) (fun t => (exists A B, t = Pi A B /\ conv T (Pi A B)) \/ ((forall A B, t <> Pi A B) /\ no_product sg T)) (fun _ => False).
  Proof.
    intros h. pose proof (ne_whnf sg n T h) as He. destruct (r_whnf sg n T h) as [[t' h']|e| |] eqn:E; auto; [|destruct (He e eq_refl)].
    pose proof (r_whnf_sound _ _ _ _ _ _ E) as Hw.
    destruct t' as [| | | | | | |A B]; try solve [left; eauto]; right; (split; [discriminate|]); (split; [eexists; split; [exact Hw|discriminate]|]);
      intros Hcr Heta A B Hc; pose proof (okc_whnf sg Hcr Heta n T A B Hc h) as X; rewrite E in X; destruct X as (? & ? & ? & _); discriminate.
  Qed.
  Lemma okf_convertible n t u : okf (r_convertible sg n t u) (fun b : bool => if b then conv t u else differ sg t u) (fun _ => False).
  Proof.
    intros h. pose proof (ne_convertible sg n t u h) as He. destruct (r_convertible sg n t u h) as [[[|] h']|e| |] eqn:E; auto; [| |destruct (He e eq_refl)].
    - eapply r_conv_sound; exact E.
    - split; [|intros Hcr Hsafe; eapply r_conv_complete; eassumption].
      intros <-. destruct n as [|n]; [discriminate|]. unfold r_convertible in E. cbn [r_conv_loop] in E. destruct (tm_eq_dec t t) as [_|X]; [|contradiction].
      destruct n; discriminate.
  Qed.

  Lemma fault n :
    (forall G t, okf (r_infer sg n G t) (infers sg G t) (inf_fault sg G t)) /\
    (forall G t T, okf (r_check sg n G t T) (fun b : bool => if b then checks sg G t T else chk_bad sg G t T) (chk_fault sg G t T)).
  Proof.
    induction n as [|n [IH1 IH2]]; [split; intros; apply okf_nofuel|]. split.
    - intros G t. rewrite r_infer_unfold. revert G. induction t as [| |c|v|t IHt u IHu|A IHA t IHt|t IHt|A IHA B IHB]; intros G; cbn [r_infer_s].
      + apply okf_fail. constructor.
      + apply okf_ret. constructor.
      + apply okf_ok_or; intros; constructor; assumption.
      + apply okf_ok_or; destruct (nth_error G v) eqn:E; cbn; try discriminate; intros; [injection H as <-|]; constructor; assumption.
      + eapply okf_bind; [apply IHt|intros e; apply if_fun|]. intros T HT. unfold r_infer_arg.
        eapply okf_bind; [apply okf_whnf|intros e []|]. intros T' [(A & B & -> & Hc)|[Hn Hno]].
        * eapply okf_bind; [apply IH2|intros e He; eapply if_arg; eassumption|]. intros [|] Hb; [apply okf_ret; econstructor; eassumption|apply okf_fail; eapply if_wrong_arg; eassumption].
        * destruct T'; try (apply okf_fail; eapply if_no_function; eassumption). destruct (Hn _ _ eq_refl).
      + eapply okf_bind; [apply IHA|intros e; apply if_lam_dom|]. intros K HK.
        destruct K; try (apply okf_fail; eapply if_lam_type; [exact HK|discriminate]).
        eapply okf_bind; [apply IHt|intros e; apply if_lam_body; exact HK|]. intros B HB.
        destruct B; try (apply okf_ret; constructor; [exact HK|exact HB|discriminate]). apply okf_fail. apply if_lam_kind; assumption.
      + apply okf_fail. constructor.
      + eapply okf_bind; [apply IHA|intros e; apply if_pi_dom|]. intros K HK.
        destruct K; try (apply okf_fail; eapply if_pi_type; [exact HK|discriminate]).
        eapply okf_bind; [apply IHB|intros e; apply if_pi_body; exact HK|]. intros s Hs.
        destruct s; try (apply okf_fail; eapply if_pi_sort; [exact HK|exact Hs|discriminate|discriminate]); apply okf_ret; econstructor; eauto.
    - intros G t T.
      assert (Hother : ~ abstraction t -> okf (bind (r_infer sg n G t) (fun ty' => r_convertible sg n ty' T)) (fun b : bool => if b then checks sg G t T else chk_bad sg G t T) (chk_fault sg G t T)).
      { intros Ht. eapply okf_bind; [apply IH1|intros e; apply cf_infer; exact Ht|]. intros A HA h. pose proof (okf_convertible n A T h) as X.
        destruct (r_convertible sg n A T h) as [[[|] h']|e| |]; auto; [|eapply cb_type; eassumption|destruct X]. eapply chk_infer; eassumption. }
      destruct t as [| |c|v|t u|A t|t|A B]; try (apply Hother; exact (fun X => X)); clear Hother; cbn [r_check].
      + eapply okf_bind; [apply okf_whnf|intros e []|]. intros T' [(A' & B & -> & Hc)|[Hn Hno]].
        * eapply okf_bind; [apply IH1|intros e He; eapply cf_domain; eassumption|]. intros K HK.
          eapply okf_bind; [apply okf_convertible|intros e []|]. intros [|] Hb; [|apply okf_ret; eapply cb_domain; eassumption].
          intros h. pose proof (IH2 (A' :: G) t B h) as X. destruct (r_check sg n (A' :: G) t B h) as [[[|] h']|e| |]; auto;
            [eapply chk_lam|eapply cb_lam_body|eapply cf_lam_body]; eassumption.
        * destruct T'; try (apply okf_fail; apply cf_no_function; [exact I|exact Hno]). destruct (Hn _ _ eq_refl).
      + eapply okf_bind; [apply okf_whnf|intros e []|]. intros T' [(A' & B & -> & Hc)|[Hn Hno]].
        * intros h. pose proof (IH2 (A' :: G) t B h) as X. destruct (r_check sg n (A' :: G) t B h) as [[[|] h']|e| |]; auto;
            [eapply chk_ulam|eapply cb_ulam_body|eapply cf_ulam_body]; eassumption.
        * destruct T'; try (apply okf_fail; apply cf_no_function; [exact I|exact Hno]). destruct (Hn _ _ eq_refl).
  Qed.
End Fault.
