(** * The term parser implements the grammar of terms *)

From Verif Require Import Base ModelSyntax ModelCommand ModelLex ModelParse ParseAuto SpecSyntax.

Local Notation tstepS := (tstep symb scope_symb).
Local Notation trunS := (trun symb scope_symb).

(** ** Running over tokens without finishing *)
Fixpoint tfold (b : list str) (st : tstate symb) (stk : list (cont symb)) (ts : list token)
  : option (tstate symb * list (cont symb)) :=
  match ts with
  | [] => Some (st, stk)
  | tok :: ts =>
      if is_comment tok then None
      else
        match tstepS b st stk tok with
        | TNext _ st stk => tfold b st stk ts
        | _ => None
        end
  end.

Lemma tfold_app b ts1 : forall st stk st1 stk1 ts2, tfold b st stk ts1 = Some (st1, stk1) ->
  tfold b st stk (ts1 ++ ts2) = tfold b st1 stk1 ts2.
Proof.
  induction ts1 as [|tok ts1 IH]; intros st stk st1 stk1 ts2; cbn [app tfold].
  - intros [= <- <-]. reflexivity.
  - destruct (is_comment tok); [discriminate|]. destruct (tstepS b st stk tok); try discriminate. apply IH.
Qed.

Lemma trun_tfold b ts : forall st stk st1 stk1 ts2, tfold b st stk ts = Some (st1, stk1) ->
  trunS b st stk (ts ++ ts2) = trunS b st1 stk1 ts2.
Proof.
  induction ts as [|tok ts IH]; intros st stk st1 stk1 ts2; cbn [app tfold trun].
  - intros [= <- <-]. reflexivity.
  - destruct (is_comment tok); [discriminate|]. destruct (tstepS b st stk tok); try discriminate. apply IH.
Qed.

(** ** Completeness *)
Definition atomt (s : symb) : pterm symb := PTm (HAtom s) [].

Lemma go_symb s ctx : go scope_symb s ctx = atomt s.
Proof. reflexivity. Qed.
Lemma gpush_push t u : gpush t u = pt_push t u.
Proof. reflexivity. Qed.

(** an application has been read completely *)
Definition endstate (st : tstate symb) (t : pterm symb) : Prop :=
  st = SATerm None t \/ exists s, st = SSymb s /\ t = atomt (symb_new s).

(** after an application, tokens that do not make it a binder *)
Definition no_binder (tok : token) : Prop := tok <> TFatArrow /\ tok <> TColon.

Lemma endstate_step b st t stk tok : endstate st t -> no_binder tok ->
  tstepS b st stk tok = step_aterm symb scope_symb b None t stk tok.
Proof.
  intros [->|(s & -> & ->)] [H1 H2]; [reflexivity|].
  cbn [tstep]. unfold step_symb. destruct tok; try reflexivity; congruence.
Qed.

(** surrounding a term by unfinished abstractions and products *)
Fixpoint wrap (t : pterm symb) (k : list (cont symb)) : pterm symb :=
  match k with
  | [] => t
  | CAbst x ty :: k => wrap (pt_new (HAbst x ty t)) k
  | CProd x ty :: k => wrap (pt_new (HProd x ty t)) k
  | CLPar _ _ :: k => wrap t k
  end.
Definition no_lpar (k : list (cont symb)) : Prop :=
  Forall (fun c => match c with CLPar _ _ => False | _ => True end) k.
Lemma reduce_wrap k : no_lpar k -> forall t stk, reduce t (k ++ stk) = reduce (wrap t k) stk.
Proof.
  intros H. induction H as [|c k Hc H IH]; intros t stk; [reflexivity|].
  destruct c as [x ty|x ty|x oa]; cbn [app reduce wrap]; try apply IH. contradiction.
Qed.
Lemma wrap_app k1 : forall k2 t, wrap t (k1 ++ k2) = wrap (wrap t k1) k2.
Proof. induction k1 as [|[x ty|x ty|x oa] k1 IH]; intros k2 t; cbn [app wrap]; auto. Qed.

Lemma complete_term :
  (forall ts t, gterm ts t -> forall b stk, exists st k u,
     tfold b SInit stk ts = Some (st, k ++ stk) /\ endstate st u /\ no_lpar k /\ wrap u k = t)
  /\ (forall ts t, gapp ts t -> forall b stk,
     (exists st, tfold b SInit stk ts = Some (st, stk) /\ endstate st t)
     /\ (forall v, tfold b (SVarOf v) stk ts = Some (SATerm (Some v) t, stk)))
  /\ (forall ts t, gatom ts t -> forall b stk,
     (exists st, tfold b SInit stk ts = Some (st, stk) /\ endstate st t)
     /\ (forall v, tfold b (SVarOf v) stk ts = Some (SATerm (Some v) t, stk))
     /\ (forall x app, tfold b (SATerm x app) stk ts = Some (SATerm x (pt_push app t), stk))
     /\ (forall st app, endstate st app -> tfold b st stk ts = Some (SATerm None (pt_push app t), stk))).
Proof.
  apply gsyn_mind.
  - (* app *) intros ts t _ IH b stk. destruct (IH b stk) as [(st & H1 & H2) _].
    exists st, [], t. repeat split; auto. constructor.
  - (* x => t *) intros x ts t _ IH b stk.
    destruct (IH b (CAbst x None :: stk)) as (st & k & u & H1 & H2 & H3 & H4).
    exists st, (k ++ [CAbst x None]), u. split; [|split; [exact H2|split]].
    + unfold name_tok. cbn [tfold is_comment tstep step_init step_symb symb_new sy_path sy_name].
      rewrite H1, <- app_assoc. reflexivity.
    + apply Forall_app. split; [exact H3|repeat constructor].
    + rewrite wrap_app, H4. reflexivity.
  - (* x : A => t *) intros x ts1 ty ts t _ IH1 _ IH2 b stk.
    destruct (IH1 b stk) as [_ Hv]. specialize (Hv x).
    destruct (IH2 b (CAbst x (Some ty) :: stk)) as (st & k & u & H1 & H2 & H3 & H4).
    exists st, (k ++ [CAbst x (Some ty)]), u. split; [|split; [exact H2|split]].
    + unfold name_tok. cbn [tfold is_comment tstep step_init step_symb symb_new sy_path sy_name].
      rewrite (tfold_app _ _ _ _ _ _ _ Hv). cbn [tfold is_comment tstep step_aterm].
      rewrite H1, <- app_assoc. reflexivity.
    + apply Forall_app. split; [exact H3|repeat constructor].
    + rewrite wrap_app, H4. reflexivity.
  - (* x : A -> t *) intros x ts1 ty ts t _ IH1 _ IH2 b stk.
    destruct (IH1 b stk) as [_ Hv]. specialize (Hv x).
    destruct (IH2 b (CProd (Some x) ty :: stk)) as (st & k & u & H1 & H2 & H3 & H4).
    exists st, (k ++ [CProd (Some x) ty]), u. split; [|split; [exact H2|split]].
    + unfold name_tok. cbn [tfold is_comment tstep step_init step_symb symb_new sy_path sy_name].
      rewrite (tfold_app _ _ _ _ _ _ _ Hv). cbn [tfold is_comment tstep step_aterm].
      rewrite H1, <- app_assoc. reflexivity.
    + apply Forall_app. split; [exact H3|repeat constructor].
    + rewrite wrap_app, H4. reflexivity.
  - (* A -> t *) intros ts1 ty ts t _ IH1 _ IH2 b stk.
    destruct (IH1 b stk) as [(st1 & Ht & He) _].
    destruct (IH2 b (CProd None ty :: stk)) as (st & k & u & H1 & H2 & H3 & H4).
    exists st, (k ++ [CProd None ty]), u. split; [|split; [exact H2|split]].
    + rewrite (tfold_app _ _ _ _ _ _ _ Ht). cbn [tfold is_comment].
      rewrite (endstate_step b st1 ty stk TArrow He) by (split; discriminate). cbn [step_aterm].
      rewrite H1, <- app_assoc. reflexivity.
    + apply Forall_app. split; [exact H3|repeat constructor].
    + rewrite wrap_app, H4. reflexivity.
  - (* one *) intros ts t _ IH b stk. destruct (IH b stk) as (H1 & H2 & _ & _). auto.
  - (* more *) intros ts1 t ts2 u _ IH1 _ IH2 b stk.
    destruct (IH1 b stk) as [(st & H1 & H2) H3]. destruct (IH2 b stk) as (_ & _ & H4 & H5). split.
    + exists (SATerm None (gpush t u)). split; [|left; reflexivity].
      rewrite (tfold_app _ _ _ _ _ _ _ H1). apply H5. exact H2.
    + intros v. rewrite (tfold_app _ _ _ _ _ _ _ (H3 v)). apply H4.
  - (* symbol *) intros s b stk. split; [|split; [|split]].
    + cbn [tfold is_comment tstep step_init]. destruct (sy_path s) eqn:E.
      * exists (SSymb (sy_name s)). split; [reflexivity|]. right. exists (sy_name s).
        split; [reflexivity|]. rewrite symb_new_name by exact E. reflexivity.
      * exists (SATerm None (atomt s)). split; [reflexivity|]. left. reflexivity.
    + intros v. reflexivity.
    + intros x app. reflexivity.
    + intros st app H. cbn [tfold is_comment]. rewrite (endstate_step b st app stk (TSymb s) H) by (split; discriminate).
      reflexivity.
  - (* parentheses *) intros ts t _ IH b stk.
    assert (G : forall x app, tfold b SInit (CLPar x app :: stk) (ts ++ [TRPar])
       = Some (SATerm x (match app with None => t | Some app => pt_push app t end), stk)).
    { intros x app. destruct (IH b (CLPar x app :: stk)) as (st & k & u & H1 & H2 & H3 & H4).
      rewrite (tfold_app _ _ _ _ _ _ _ H1). cbn [tfold is_comment].
      rewrite (endstate_step b st u _ TRPar H2) by (split; discriminate). cbn [step_aterm].
      rewrite reduce_wrap by exact H3. rewrite H4. reflexivity. }
    split; [|split; [|split]].
    + exists (SATerm None t). split; [|left; reflexivity].
      cbn [tfold is_comment tstep step_init]. apply (G None None).
    + intros v. cbn [tfold is_comment tstep step_varof]. apply (G (Some v) None).
    + intros x app. cbn [tfold is_comment tstep step_aterm]. apply (G x (Some app)).
    + intros st app H. cbn [tfold is_comment]. rewrite (endstate_step b st app stk TLPar H) by (split; discriminate).
      cbn [step_aterm]. apply (G None (Some app)).
Qed.

(** tokens that end a term *)
Definition ends_term (tok : token) : Prop :=
  match tok with
  | TSymb _ | TArrow | TFatArrow | TLPar | TColon | TComment _ => False
  | _ => True
  end.

(** A derivable term followed by a token that ends it is read completely. *)
Lemma complete_done ts t b : gterm ts t -> forall tok, ends_term tok ->
  exists st stk, tfold b SInit [] ts = Some (st, stk) /\ tstepS b st stk tok = TDone symb t [].
Proof.
  intros H tok Htok. destruct (proj1 complete_term ts t H b []) as (st & k & u & H1 & H2 & H3 & H4).
  rewrite app_nil_r in H1. exists st, k. split; [exact H1|].
  rewrite (endstate_step b st u k tok H2).
  - unfold step_aterm. rewrite <- (app_nil_r k), (reduce_wrap k H3), H4. cbn [reduce].
    destruct tok; cbn in Htok; try contradiction; reflexivity.
  - split; intros ->; exact Htok.
Qed.

(** ** Soundness *)

(** tokens of the stack *)
Inductive kstack : list token -> list (cont symb) -> Prop :=
| ks_nil : kstack [] []
| ks_abs p stk x : kstack p stk -> kstack (p ++ [name_tok x; TFatArrow]) (CAbst x None :: stk)
| ks_abs_of p stk x ts ty : kstack p stk -> gapp ts ty ->
    kstack (p ++ name_tok x :: TColon :: ts ++ [TFatArrow]) (CAbst x (Some ty) :: stk)
| ks_prod p stk ts ty : kstack p stk -> gapp ts ty -> kstack (p ++ ts ++ [TArrow]) (CProd None ty :: stk)
| ks_prod_of p stk x ts ty : kstack p stk -> gapp ts ty ->
    kstack (p ++ name_tok x :: TColon :: ts ++ [TArrow]) (CProd (Some x) ty :: stk)
| ks_lpar p stk x app pre : kstack p stk -> kpar x app pre -> kstack (p ++ pre ++ [TLPar]) (CLPar x app :: stk)
(** tokens between the context of a parenthesis and the parenthesis *)
with kpar : option str -> option (pterm symb) -> list token -> Prop :=
| kp_none : kpar None None []
| kp_app ts app : gapp ts app -> kpar None (Some app) ts
| kp_of x : kpar (Some x) None [name_tok x; TColon]
| kp_of_app x ts app : gapp ts app -> kpar (Some x) (Some app) (name_tok x :: TColon :: ts).

Inductive kstate : list token -> tstate symb -> Prop :=
| kst_init : kstate [] SInit
| kst_symb s : kstate [name_tok s] (SSymb s)
| kst_varof x : kstate [name_tok x; TColon] (SVarOf x)
| kst_app ts app : gapp ts app -> kstate ts (SATerm None app)
| kst_of_app x ts app : gapp ts app -> kstate (name_tok x :: TColon :: ts) (SATerm (Some x) app).

(** [pre] has been read *)
Definition kconf (pre : list token) (st : tstate symb) (stk : list (cont symb)) : Prop :=
  exists p q, pre = p ++ q /\ kstack p stk /\ kstate q st.

Lemma reduce_sound stk : forall p ts t, kstack p stk -> gterm ts t ->
  match reduce t stk with
  | (None, t', stk') => stk' = [] /\ gterm (p ++ ts) t'
  | (Some (x, app), t', stk') =>
      exists p' pre ts', p ++ ts = p' ++ pre ++ TLPar :: ts' /\ kstack p' stk' /\ kpar x app pre /\ gterm ts' t'
  end.
Proof.
  induction stk as [|c stk IH]; intros p ts t Hk Ht; cbn [reduce].
  - inversion Hk; subst. split; [reflexivity|exact Ht].
  - inversion Hk as [|p0 stk0 x Hk0|p0 stk0 x ts0 ty Hk0 Hty|p0 stk0 ts0 ty Hk0 Hty|p0 stk0 x ts0 ty Hk0 Hty|p0 stk0 x app pre Hk0 Hp]; subst.
    + rewrite <- app_assoc. cbn [app]. apply IH; [exact Hk0|]. apply g_abs. exact Ht.
    + rewrite <- app_assoc. cbn [app]. rewrite <- app_assoc. cbn [app]. apply IH; [exact Hk0|]. apply g_abs_of; assumption.
    + rewrite <- !app_assoc. cbn [app]. apply IH; [exact Hk0|]. apply g_prod; assumption.
    + rewrite <- app_assoc. cbn [app]. rewrite <- app_assoc. cbn [app]. apply IH; [exact Hk0|]. apply g_prod_of; assumption.
    + exists p0, pre, ts. rewrite <- !app_assoc. auto.
Qed.

(** a step on a state in which an application has been read *)
Lemma step_aterm_sound b p q stk tok x ap ts :
  is_comment tok = false -> kstack p stk -> gapp ts ap ->
  q = match x with None => ts | Some x => name_tok x :: TColon :: ts end ->
  match step_aterm symb scope_symb b x ap stk tok with
  | TNext _ st' stk' => kconf ((p ++ q) ++ [tok]) st' stk'
  | TDone _ t stk' => stk' = [] /\ gterm (p ++ q) t
  | TErr _ _ _ => True
  end.
Proof.
  intros Hc Hk Ha ->.
  assert (Kst : kstate (match x with None => ts | Some x => name_tok x :: TColon :: ts end) (SATerm x ap)).
  { destruct x; constructor; exact Ha. }
  assert (Hpar : kpar x (Some ap) (match x with None => ts | Some x => name_tok x :: TColon :: ts end)).
  { destruct x; constructor; exact Ha. }
  set (q := match x with None => ts | Some x => name_tok x :: TColon :: ts end) in *.
  assert (Hred : x = None ->
     match (let '(lpar, t, stk0) := reduce ap stk in
          match lpar with
          | Some (x, oapp) =>
              match tok with
              | TRPar => TNext symb (SATerm x (match oapp with None => t | Some ap => pt_push ap t end)) stk0
              | _ => TErr symb UnclosedLPar stk0
              end
          | None => TDone symb t stk0
          end) with
     | TNext _ st' stk' => kconf ((p ++ q) ++ [tok]) st' stk'
     | TDone _ t stk' => stk' = [] /\ gterm (p ++ q) t
     | TErr _ _ _ => True
     end).
  { intros ->. subst q. pose proof (reduce_sound stk p ts ap Hk (g_app _ _ Ha)) as Hr.
    destruct (reduce ap stk) as [[[[x2 oapp]|] t2] stk2].
    - destruct Hr as (p' & pre & ts' & E & Hk' & Hp' & Ht').
      destruct tok; try exact I.
      assert (Hat : gatom (TLPar :: ts' ++ [TRPar]) t2) by (constructor; exact Ht').
      exists p', (pre ++ TLPar :: ts' ++ [TRPar]). split; [|split; [exact Hk'|]].
      + rewrite E, <- !app_assoc. reflexivity.
      + inversion Hp' as [|ts0 app0 Hap|x0|x0 ts0 app0 Hap]; subst.
        * constructor. constructor. exact Hat.
        * constructor. apply ga_more; assumption.
        * cbn [app]. constructor. constructor. exact Hat.
        * cbn [app]. constructor. apply ga_more; assumption.
    - exact Hr. }
  assert (Hx : x <> None -> forall e s, match
      (match x with Some _ => TErr symb e s | None =>
         let '(lpar, t, stk0) := reduce ap stk in
          match lpar with
          | Some (x, oapp) =>
              match tok with
              | TRPar => TNext symb (SATerm x (match oapp with None => t | Some ap => pt_push ap t end)) stk0
              | _ => TErr symb UnclosedLPar stk0
              end
          | None => TDone symb t stk0
          end end) with
     | TNext _ st' stk' => kconf ((p ++ q) ++ [tok]) st' stk'
     | TDone _ t stk' => stk' = [] /\ gterm (p ++ q) t
     | TErr _ _ _ => True
     end).
  { intros H e s. destruct x; [exact I|congruence]. }
  destruct tok as [ | | | | | | | | | | | | | | |s1|o1|]; try discriminate Hc; unfold step_aterm;
    try (destruct x as [x|]; [exact I|apply Hred; reflexivity]).
  - (* ( *) exists ((p ++ q) ++ [TLPar]), []. rewrite app_nil_r. split; [reflexivity|]. split; [|constructor].
    rewrite <- app_assoc. constructor; [exact Hk|exact Hpar].
  - (* -> *) exists ((p ++ q) ++ [TArrow]), []. rewrite app_nil_r. split; [reflexivity|]. split; [|constructor].
    rewrite <- app_assoc. unfold q. destruct x as [x|]; [cbn [app]|]; constructor; assumption.
  - (* => *) destruct x as [x|]; [|exact I].
    exists ((p ++ q) ++ [TFatArrow]), []. rewrite app_nil_r. split; [reflexivity|]. split; [|constructor].
    rewrite <- app_assoc. unfold q. cbn [app]. constructor; assumption.
  - (* symbol *) exists p, (q ++ [TSymb s1]). rewrite app_assoc. split; [reflexivity|]. split; [exact Hk|].
    rewrite go_symb. change (pt_push ap (atomt s1)) with (gpush ap (atomt s1)).
    assert (Hs : gatom [TSymb s1] (atomt s1)) by constructor.
    unfold q. destruct x as [x|]; [cbn [app]|]; constructor; apply ga_more; assumption.
Qed.

Lemma tstep_sound b pre st stk tok : is_comment tok = false -> kconf pre st stk ->
  match tstepS b st stk tok with
  | TNext _ st' stk' => kconf (pre ++ [tok]) st' stk'
  | TDone _ t stk' => stk' = [] /\ gterm pre t
  | TErr _ _ _ => True
  end.
Proof.
  intros Hc (p & q & -> & Hk & Hs).
  inversion Hs as [|s|x|ts ap Ha|x ts ap Ha]; subst; cbn [tstep].
  - rewrite app_nil_r. unfold step_init.
    destruct tok as [ | | | | | | | | | | | | | | |s1|o1|]; try exact I.
    + exists (p ++ [TLPar]), []. rewrite app_nil_r. split; [reflexivity|]. split; [|constructor].
      apply (ks_lpar p stk None None []); [exact Hk|constructor].
    + destruct (sy_path s1) eqn:E.
      * exists p, [TSymb s1]. split; [reflexivity|]. split; [exact Hk|].
        rewrite <- (symb_new_name s1 E) at 1. constructor.
      * exists p, [TSymb s1]. split; [reflexivity|]. split; [exact Hk|]. constructor. constructor. constructor.
  - assert (Ha : gapp [name_tok s] (atomt (symb_new s))) by (constructor; constructor).
    pose proof (step_aterm_sound b p [name_tok s] stk tok None (atomt (symb_new s)) [name_tok s] Hc Hk Ha eq_refl) as H.
    unfold step_symb. rewrite go_symb.
    destruct tok as [ | | | | | | | | | | | | | | |s1|o1|]; try exact H.
    + exists p, ([name_tok s] ++ [TColon]). rewrite app_assoc. split; [reflexivity|]. split; [exact Hk|constructor].
    + exists (p ++ [name_tok s; TFatArrow]), []. rewrite app_nil_r, <- app_assoc.
      split; [reflexivity|]. split; [constructor; exact Hk|constructor].
  - unfold step_varof. destruct tok as [ | | | | | | | | | | | | | | |s1|o1|]; try exact I.
    + exists ((p ++ [name_tok x; TColon]) ++ [TLPar]), []. rewrite app_nil_r. split; [reflexivity|]. split; [|constructor].
      rewrite <- app_assoc. apply ks_lpar; [exact Hk|constructor].
    + exists p, ([name_tok x; TColon] ++ [TSymb s1]). rewrite app_assoc. split; [reflexivity|]. split; [exact Hk|].
      cbn [app]. constructor. constructor. constructor.
  - apply step_aterm_sound with (ts := q); auto.
  - apply step_aterm_sound with (ts := ts); auto.
Qed.

Lemma kconf_init : kconf [] SInit [].
Proof. exists [], []. split; [reflexivity|]. split; constructor. Qed.
