(** * Property C72: work that has been done is kept *)

From Verif Require Import Base ModelTerm ModelGctx ModelSubst ModelReduce SpecWork MainWork Samples SamplesWork.

(** Evaluation keeps all cells of the heap, up to evaluating states and terms that were not evaluated; the state and the term
    that were asked for are then evaluated. *)
Theorem C72_kept : forall uniq gc n,
  (forall st s st' s', state_whnf uniq gc n st s = Ok (st', s') -> keeps (m_heap s) (m_heap s')) /\
  (forall l s a s', rstate_whnf (state_whnf uniq gc n) l s = Ok (a, s') -> keeps (m_heap s) (m_heap s') /\ state_done (m_heap s') l) /\
  (forall l s t s', force uniq n l s = Ok (t, s') -> keeps (m_heap s) (m_heap s') /\ term_done (m_heap s') l t) /\
  (forall l s t s', sterm_of_rstate uniq n l s = Ok (t, s') -> keeps (m_heap s) (m_heap s')).
Proof. exact main_keeps. Qed.
Print Assumptions C72_kept.
(** So a state is evaluated at most once: later on, whatever evaluation [w] would do, it is not called.  The same for a term. *)
Theorem C72_once : forall uniq gc n,
  (forall l s a s', rstate_whnf (state_whnf uniq gc n) l s = Ok (a, s') -> forall h, keeps (m_heap s') h ->
    forall w tick, rstate_whnf w l (MSt h tick) = Ok (tt, MSt h tick)) /\
  (forall l s t s', force uniq n l s = Ok (t, s') -> forall h, keeps (m_heap s') h ->
    forall uniq' m tick, force uniq' (S m) l (MSt h tick) = Ok (t, MSt h tick)).
Proof. exact main_once. Qed.
Print Assumptions C72_once.
(** Whatever is being evaluated remains so until its evaluation ends, and asking for it in the meantime panics. *)
Theorem C72_busy : forall h h' l, keeps h h' ->
  (state_busy h l -> state_busy h' l /\ forall w tick, rstate_whnf w l (MSt h' tick) = Panic) /\
  (term_busy h l -> term_busy h' l /\ forall uniq n tick, force uniq (S n) l (MSt h' tick) = Panic).
Proof. exact main_busy. Qed.
Print Assumptions C72_busy.
(** Arguments of functions are yet evaluated once per occurrence of a variable, since forcing the term of an argument does not
    evaluate its state: there are terms of linear size whose evaluation allocates exponentially many cells. *)
Theorem C72_by_need_refuted : exists gc t, forall k, lsize (t k) = 1 + 7 * k /\ forall uniq n, 6 * k < n ->
  exists st s, state_whnf uniq gc n (state_new (sterm_of_lterm (t k))) (MSt [] 0) = Ok (st, s) /\ length (m_heap s) = 4 * (2 ^ k - 1).
Proof. exact work_refuted. Qed.
Print Assumptions C72_by_need_refuted.

(** [1 + 1] is evaluated, and then asked for again. *)
Example C72_example_state : exists st s, rstate_whnf (state_whnf shared sample_gc fuel) 0 (MSt [two_cell] 0) = Ok (tt, s) /\
  nth_error (m_heap s) 0 = Some (CState st true false) /\ s_term st = SConst 2 /\ 3 < length (m_heap s) /\
  rstate_whnf (fun _ => ret st) 0 s = Ok (tt, s).
Proof. do 2 eexists. split; [vm_compute; reflexivity|]. split; [reflexivity|]. split; [reflexivity|]. split; [cbn; lia|reflexivity]. Qed.
(** A term is read back before its state is evaluated, and after. *)
Example C72_example_term : exists s s1 s2 t,
  force shared fuel 1 (MSt [two_cell; CThunk (TTodo 0)] 0) = Ok (two, s) /\ force shared 1 1 s = Ok (two, s) /\
  rstate_whnf (state_whnf shared sample_gc fuel) 0 (MSt [two_cell; CThunk (TTodo 0)] 0) = Ok (tt, s1) /\ force shared fuel 1 s1 = Ok (t, s2) /\ t <> two.
Proof. do 4 eexists. split; [vm_compute; reflexivity|]. split; [vm_compute; reflexivity|]. split; [vm_compute; reflexivity|]. split; [vm_compute; reflexivity|]. vm_compute. discriminate. Qed.
(** A state that is evaluated while being evaluated *)
Example C72_example_busy : rstate_whnf (fun st => bind (rstate_whnf (fun st => ret st) 0) (fun _ => ret st)) 0 (MSt [two_cell] 0) = Panic.
Proof. reflexivity. Qed.
(** the tower of height 3 *)
Example C72_example_tower : exists s, state_whnf sometimes work_gc 19 (state_new (sterm_of_lterm (tower 3))) (MSt [] 0) = Ok (State [] (SConst 1) [], s) /\ length (m_heap s) = 28.
Proof. eexists. split; vm_compute; reflexivity. Qed.
