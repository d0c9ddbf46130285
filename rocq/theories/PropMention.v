(** * Property C66: substitution reports, and copies, exactly what changes

    [STerm::apply_subst] returns whether the term changed; a shared cell is replaced by a copy only in this case.
    [sb] is the replacement of variables (which may fail or force thunks), [uniq] the answers of [Rc::get_mut]. *)

From Verif Require Import Base ModelTerm ModelSubst ModelInfer SpecTerm SpecMention Erase Samples MainMention.

(** The flag is set iff a variable from [k] on occurs in the term. *)
Theorem C66_flag : forall uniq sb t k s t' b s', apply_subst uniq sb t k s = Ok ((t', b), s') -> (b = true <-> mentions k (ers t)).
Proof. exact main_change. Qed.
Print Assumptions C66_flag.

(** If there is no such variable, nothing fails and no thunk is forced, whatever [sb] does: it is not called. *)
Theorem C66_no_change : forall uniq sb t k s, ~ mentions k (ers t) ->
  exists t' s', apply_subst uniq sb t k s = Ok ((t', false), s') /\ m_heap s' = m_heap s.
Proof. exact main_no_change. Qed.
Print Assumptions C66_no_change.

(** In this case, a shared cell is kept as it is, including all that is below it. *)
Theorem C66_kept : forall uniq sb c k s, uniq (m_tick s) = false -> ~ mentions k (ers (SSComb c)) ->
  exists s', apply_subst uniq sb (SSComb c) k s = Ok ((SSComb c, false), s') /\ m_heap s' = m_heap s.
Proof. exact main_kept. Qed.
Print Assumptions C66_kept.

(** [x => f x y], where [y] occurs at 0 but not from 1 on; references to long-lived terms are only kept below shared cells *)
Example C66_example : let c := Abst nm None (SSComb (Appl (SConst 7) [SVar 0; SLComb (Appl (LConst 8) [LVar 1])])) in
  mentions 0 (ers (SSComb c)) /\ ~ mentions 1 (ers (SSComb c)) /\
  run (apply_subst shared (fun _ _ => panic) (SSComb c) 1) = Ok (SSComb c, false) /\
  run (apply_subst owned (fun _ _ => panic) (SSComb c) 1) = Ok (SSComb (Abst nm None (SSComb (Appl (SConst 7) [SVar 0; SSComb (Appl (SConst 8) [SVar 1])]))), false) /\
  run (apply_subst shared (fun _ _ => panic) (SSComb c) 0) = Panic.
Proof.
  cbv zeta. split; [|split].
  - cbn. apply mentions_ubody, mentions_arg, mentions_arg, mentions_var. lia.
  - cbn. intros H. repeat match goal with H : mentions _ _ |- _ => inversion H; clear H; subst end; lia.
  - vm_compute. auto.
Qed.
