(** The network library as a whole (C57): which constructor calls succeed, and that a
    network never touches anything created before it. *)
From Coq Require Import Arith ZArith Bool String List Lia.
From Verif Require Import Num Heapq Elements Networks Build BuildNets.
Import ListNotations.
Open Scope list_scope.

Section Lib.
Context {T : Type} `{Num T}.
Implicit Types w : world T.
Implicit Types enc : encoder T.

(** One constructor call of the library; axon_sdk/networks/__init__.py lists the classes. *)
Inductive request :=
  | RConstant (value : T) | RSignedConstant (value : T)
  | RMemory | RInvertingMemory | RSignedMemory
  | RSynchronizer (N : nat)
  | RSubtractor | RAdder | RLinearCombinator (N : nat) (coeff : list T) | RScalarMultiplier (factor : T)
  | RSignFlipper | RExponential | RLog | RMultiplier | RSignedMultiplier | RSignedMultiplierNorm (factor : T) | RDiv
  | RIntegrator (constant : T) (coeffs : list T) (prefix : string).
(** the call; the result is the new network's module *)
Definition create enc (name : option string) (r : request) : B T nat :=
  match r with
  | RConstant v => bbind (ConstantNetwork enc v name) (fun k => bret (k_mod k))
  | RSignedConstant v => bbind (SignedConstantNetwork enc v name) (fun k => bret (sk_mod k))
  | RMemory => bbind (MemoryNetwork enc name) (fun k => bret (mm_mod k))
  | RInvertingMemory => bbind (InvertingMemoryNetwork enc name) (fun k => bret (im_mod k))
  | RSignedMemory => bbind (SignedMemoryNetwork enc name) (fun k => bret (sm_mod k))
  | RSynchronizer N => bbind (SynchronizerNetwork enc N name) (fun k => bret (sy_mod k))
  | RSubtractor => bbind (SubtractorNetwork enc name) (fun k => bret (sb_mod k))
  | RAdder => bbind (AdderNetwork enc name) (fun k => bret (lc_mod (ad_lin k)))
  | RLinearCombinator N coeff => bbind (LinearCombinatorNetwork enc N coeff name) (fun k => bret (lc_mod k))
  | RScalarMultiplier f => bbind (ScalarMultiplierNetwork f enc name) (fun k => bret (sc_mod k))
  | RSignFlipper => bbind (SignFlipperNetwork enc name) (fun k => bret (sf_mod k))
  | RExponential => bbind (ExponentialNetwork enc name) (fun k => bret (ex_mod k))
  | RLog => bbind (LogNetwork enc name) (fun k => bret (lg_mod k))
  | RMultiplier => bbind (MultiplierNetwork enc name) (fun k => bret (mu_mod k))
  | RSignedMultiplier => bbind (SignedMultiplierNetwork enc name) (fun k => bret (sx_mod k))
  | RSignedMultiplierNorm f => bbind (SignedMultiplierNormNetwork enc f name) (fun k => bret (sn_mod k))
  | RDiv => bbind (DivNetwork enc name) (fun k => bret (dv_mod k))
  | RIntegrator c l p => bbind (IntegratorNetwork enc c l p) (fun _ => bret 0)
  end.

(** Specification. Which exception a call raises, if any. *)
Definition uses_Tmax (r : request) : bool :=
  match r with
  | RMemory | RInvertingMemory | RSignedMemory | RAdder | RLinearCombinator _ _ | RScalarMultiplier _
  | RSignFlipper | RSignedMultiplierNorm _ | RDiv => true
  | RSynchronizer N => negb (N =? 0)
  | _ => false
  end.
Definition uses_Tcod (r : request) : bool :=
  match r with
  | RSignFlipper | RExponential | RLog | RMultiplier | RSignedMultiplier | RSignedMultiplierNorm _ | RDiv
  | RIntegrator _ _ _ => true
  | _ => false
  end.
Definition refusal enc (r : request) : option err :=
  if uses_Tmax r && neqb (Tmax enc) nzero || uses_Tcod r && neqb (Tcod enc) nzero then Some EZeroDiv
  else match r with
       | RLinearCombinator N coeff => if List.length coeff <? N then Some EIndex else None
       | RIntegrator _ _ _ => Some EType
       | _ => None
       end.
(** How many neurons a network has. *)
Definition size (r : request) : nat :=
  match r with
  | RConstant _ => 2 | RSignedConstant _ => 3
  | RMemory => 8 | RInvertingMemory => 6 | RSignedMemory => 16
  | RSynchronizer N => 1 + 10 * N
  | RSubtractor => 9 | RAdder => 52 | RLinearCombinator N _ => 40 + 6 * N | RScalarMultiplier _ => 6
  | RSignFlipper => 4 | RExponential => 5 | RLog => 5 | RMultiplier => 12 | RSignedMultiplier => 23
  | RSignedMultiplierNorm _ => 28 | RDiv => 25
  | RIntegrator _ _ _ => 0
  end.
(** [m] is a self-contained network of k standard neurons, all new *)
Record self_contained w w' (m k : nat) : Prop := {
  sc_neurons : exists new, w_neurons w' = w_neurons w ++ new /\ List.length new = k /\ forall nr, In nr new -> nr_params nr = std_params;
  sc_synapses : exists new, w_syns w' = w_syns w ++ new /\ forall y, In y new ->
     List.length (w_neurons w) <= s_pre y < List.length (w_neurons w') /\ List.length (w_neurons w) <= s_post y < List.length (w_neurons w');
  sc_listed : exists keys, neurons_of w' m = Ok keys /\ forall n, In n keys <-> List.length (w_neurons w) <= n < List.length (w_neurons w');
  sc_others : forall j, j < List.length (w_mods w) -> neurons_of w' j = neurons_of w j;
  sc_new : List.length (w_mods w) <= m < List.length (w_mods w')
}.

(** ** Confinement: a Hoare logic of lower bounds *)
Section Conf.
Variable w0 : world T.
Let n0 := List.length (w_neurons w0).
Let m0 := List.length (w_mods w0).
Record conf w : Prop := {
  cf_n : n0 <= List.length (w_neurons w);
  cf_m : m0 <= List.length (w_mods w);
  cf_y : exists L, w_syns w = w_syns w0 ++ L /\ forall y, In y L -> n0 <= s_pre y /\ n0 <= s_post y;
  cf_d : forall j md, m0 <= j -> nth_error (w_mods w) j = Some md ->
     (forall n, In n (m_neurons md) -> n0 <= n) /\ (forall s, In s (m_subs md) -> m0 <= s)
}.
Lemma conf_refl : conf w0.
Proof.
  constructor; auto.
  - exists []. rewrite app_nil_r. split; auto. intros y [].
  - intros j md Hj E. assert (j < List.length (w_mods w0)) by (apply nth_error_Some; congruence). unfold m0 in Hj. lia.
Qed.
Definition keeps {A} (Q : A -> Prop) (b : B T A) : Prop := forall w a w', conf w -> b w = Ok (a, w') -> conf w' /\ Q a.
Lemma keeps_bind {A C} (Q : A -> Prop) (Q' : C -> Prop) b f : keeps Q b -> (forall a, Q a -> keeps Q' (f a)) -> keeps Q' (bbind b f).
Proof.
  intros K1 K2 w a w' C0 E. unfold bbind in E. destruct (b w) as [[x w1]|] eqn:Eb; [|discriminate].
  destruct (K1 _ _ _ C0 Eb) as [C1 Hx]. exact (K2 x Hx _ _ _ C1 E).
Qed.
Lemma keeps_weak {A} (Q Q' : A -> Prop) b : keeps Q b -> (forall a, Q a -> Q' a) -> keeps Q' b.
Proof. intros K HQ w a w' C E. destruct (K _ _ _ C E). auto. Qed.
Lemma keeps_ret {A} (Q : A -> Prop) a : Q a -> keeps Q (bret a).
Proof. intros Ha w x w' C E. injection E as <- <-. auto. Qed.
Lemma keeps_res {A} r : keeps (fun _ : A => True) (bres r).
Proof. intros w x w' C E. unfold bres in E. destruct r; [|discriminate]. injection E as <- <-. auto. Qed.
Lemma keeps_err {A} (Q : A -> Prop) e : keeps Q (berr e).
Proof. intros w x w' C E. discriminate. Qed.
Lemma keeps_newmod nm : keeps (fun m => m0 <= m) (new_module nm).
Proof.
  intros w m w' [A1 A2 A3 A4] E. injection E as <- <-. split; auto. constructor; cbn; auto.
  - rewrite app_length. lia.
  - intros j md Hj E. apply nth_error_snoc in E as [E|[-> ->]]; [eauto|]. cbn. split; intros ? [].
Qed.
Lemma keeps_addn m nm : keeps (fun n => n0 <= n) (addn m nm).
Proof.
  intros w n w' [A1 A2 A3 A4] E. injection E as <- <-. split; auto. constructor; cbn [w_neurons w_mods w_syns]; auto.
  - rewrite app_length. lia.
  - rewrite upd_len. auto.
  - intros j md Hj. rewrite upd_nth. destruct (Nat.eqb_spec j m) as [->|]; [|apply A4; auto].
    destruct (nth_error (w_mods w) m) as [x|] eqn:E; cbn; [|discriminate]. intros [= <-]. cbn.
    destruct (A4 m x Hj E) as [P Q]. split; auto. intros n Hn. apply in_app_iff in Hn as [Hn|[<-|[]]]; auto.
Qed.
Lemma keeps_conn pre post ty wt d : n0 <= pre -> n0 <= post -> keeps (fun _ => True) (connect pre post ty wt d).
Proof.
  intros H1 H2 w u w' [A1 A2 [L [E1 HL]] A4] E. injection E as _ <-. split; auto. constructor; cbn; auto.
  exists (L ++ [syn pre post ty wt d]). rewrite E1, app_assoc. split; auto. intros y Hy. apply in_app_iff in Hy as [Hy|[<-|[]]]; auto.
Qed.
Lemma keeps_addsub m s : m0 <= s -> keeps (fun _ => True) (add_subnetwork m s).
Proof.
  intros Hs w n w' [A1 A2 A3 A4] E. injection E as <- <-. split; auto. constructor; cbn [w_neurons w_mods w_syns]; auto.
  - rewrite upd_len. auto.
  - intros j md Hj. rewrite upd_nth. destruct (Nat.eqb_spec j m) as [->|]; [|apply A4; auto].
    destruct (nth_error (w_mods w) m) as [x|] eqn:E; cbn; [|discriminate]. intros [= <-]. cbn.
    destruct (A4 m x Hj E) as [P Q]. split; auto. intros n Hn. apply in_app_iff in Hn as [Hn|[<-|[]]]; auto.
Qed.
Lemma keeps_fold {A C} (Q : A -> Prop) (f : A -> C -> B T A) l : (forall a x, Q a -> keeps Q (f a x)) -> forall a, Q a -> keeps Q (bfold f l a).
Proof.
  intros K. induction l as [|x l IH]; intros a Ha; [apply keeps_ret; auto|].
  cbn [bfold]. apply keeps_bind with (Q := Q); auto.
Qed.

Ltac kfin := repeat match goal with HQ : _ /\ _ |- _ => destruct HQ end; cbn [k_mod sk_mod mm_mod mm_input mm_recall mm_ready mm_output im_mod sm_mod sf_mod sb_mod sb_input1 sb_input2 sb_output_plus sb_output_minus sc_mod sc_input sc_output lc_mod ad_lin ex_mod ex_input ex_output lg_mod mu_mod mu_input1 mu_input2 mu_output ls_mod ls_output1 ls_output2 dv_mod sx_mod sn_mod]; repeat match goal with |- _ /\ _ => split end; match goal with HQ : ?g |- ?g => exact HQ end.
Ltac kstep :=
  match goal with
  | |- keeps _ (let _ := _ in _) => cbv zeta
  | |- keeps _ (bbind (new_module _) _) => eapply keeps_bind; [apply keeps_newmod|cbv beta; intros ? ?]
  | |- keeps _ (bbind (addn _ _) _) => eapply keeps_bind; [apply keeps_addn|cbv beta; intros ? ?]
  | |- keeps _ (bbind (mk_wacc _) _) => eapply keeps_bind; [apply keeps_res|cbv beta; intros ? _]
  | |- keeps _ (bbind (mk_wacc_bar _) _) => eapply keeps_bind; [apply keeps_res|cbv beta; intros ? _]
  | |- keeps _ (bbind (bres _) _) => eapply keeps_bind; [apply keeps_res|cbv beta; intros ? _]
  | |- keeps _ (bbind (connect _ _ _ _ _) _) => eapply keeps_bind; [apply keeps_conn; kfin|cbv beta; intros ? _]
  | |- keeps _ (bbind (add_subnetwork _ _) _) => eapply keeps_bind; [apply keeps_addsub; kfin|cbv beta; intros ? _]
  | |- keeps _ (connect _ _ _ _ _) => apply keeps_conn; kfin
  | |- keeps _ (bret _) => apply keeps_ret; kfin
  end.
Ltac kall := repeat kstep.
Ltac ksub K := eapply keeps_bind; [apply K|cbv beta; intros ? ?].
Ltac kif := match goal with |- context [if ?b then _ else _] => destruct b end.

Lemma k_Constant enc v nm : keeps (fun k => m0 <= k_mod k) (ConstantNetwork enc v nm).
Proof. unfold ConstantNetwork. kall. Qed.
Lemma k_SConstant enc v nm : keeps (fun k => m0 <= sk_mod k) (SignedConstantNetwork enc v nm).
Proof. unfold SignedConstantNetwork. kall. kif; kall. Qed.
Lemma k_Memory enc nm : keeps (fun k => m0 <= mm_mod k /\ n0 <= mm_input k /\ n0 <= mm_recall k /\ n0 <= mm_ready k /\ n0 <= mm_output k) (MemoryNetwork enc nm).
Proof. unfold MemoryNetwork. kall. Qed.
Lemma k_IMemory enc nm : keeps (fun k => m0 <= im_mod k) (InvertingMemoryNetwork enc nm).
Proof. unfold InvertingMemoryNetwork. kall. Qed.
Lemma k_SMemory enc nm : keeps (fun k => m0 <= sm_mod k) (SignedMemoryNetwork enc nm).
Proof. unfold SignedMemoryNetwork. kall. ksub k_Memory. kall. Qed.
Lemma k_Flip enc nm : keeps (fun k => m0 <= sf_mod k) (SignFlipperNetwork enc nm).
Proof. unfold SignFlipperNetwork. kall. Qed.
Lemma k_Sub enc nm : keeps (fun k => m0 <= sb_mod k /\ n0 <= sb_input1 k /\ n0 <= sb_input2 k /\ n0 <= sb_output_plus k /\ n0 <= sb_output_minus k) (SubtractorNetwork enc nm).
Proof. unfold SubtractorNetwork. kall. Qed.
Lemma Forall_snoc {A} (P : A -> Prop) l x : Forall P l -> P x -> Forall P (l ++ [x]).
Proof. intros. apply Forall_app. auto. Qed.
Lemma k_Sync enc N nm : keeps (fun k => m0 <= sy_mod k /\ Forall (le n0) (sy_inputs k) /\ Forall (le n0) (sy_outputs k)) (SynchronizerNetwork enc N nm).
Proof.
  unfold SynchronizerNetwork. kall.
  eapply keeps_bind with (Q := fun r => Forall (le n0) (fst (fst r)) /\ Forall (le n0) (snd (fst r))).
  - apply keeps_fold; [|cbn; auto]. intros [[ins outs] mems] i [Hi Ho]. unfold sync_iter. cbn [fst snd] in Hi, Ho.
    kall. ksub k_Memory. kall. apply keeps_ret. cbn [fst snd]. split; apply Forall_snoc; auto.
  - intros [[ins outs] mems] [Hi Ho]. apply keeps_ret. cbn in *. auto.
Qed.
Lemma k_Sync2 enc nm : keeps (fun k => m0 <= sy_mod k /\ n0 <= nth 0 (sy_inputs k) 0 /\ n0 <= nth 1 (sy_inputs k) 0 /\ n0 <= nth 0 (sy_outputs k) 0 /\ n0 <= nth 1 (sy_outputs k) 0) (SynchronizerNetwork enc 2 nm).
Proof.
  unfold SynchronizerNetwork, sync_iter. cbn [bfold seq]. kstep. kstep.
  eapply keeps_bind with (Q := fun r => exists a b c d m, r = ([a; b], [c; d], m) /\ n0 <= a /\ n0 <= b /\ n0 <= c /\ n0 <= d).
  - match goal with |- keeps ?Q _ => set (QQ := Q) end.
    eapply keeps_bind with (Q := fun r => exists a c m, r = ([a], [c], m) /\ n0 <= a /\ n0 <= c).
    + kall. ksub k_Memory. kall. apply keeps_ret. cbn [app]. eexists. eexists. eexists. split; [reflexivity|]. auto.
    + intros r (a1 & c1 & m1 & -> & Ha & Hc). eapply keeps_bind with (Q := QQ); [|intros r Hr; apply keeps_ret; exact Hr].
      kall. ksub k_Memory. kall. apply keeps_ret. cbn [app]. exists a1. eexists. exists c1. eexists. eexists. split; [reflexivity|]. auto.
  - intros r (a1 & b1 & c1 & d1 & m1 & -> & ? & ? & ? & ?). apply keeps_ret. cbn. auto.
Qed.
Lemma k_ScalarMul f enc nm : keeps (fun k => m0 <= sc_mod k /\ n0 <= sc_input k /\ n0 <= sc_output k) (ScalarMultiplierNetwork f enc nm).
Proof. unfold ScalarMultiplierNetwork. kall. Qed.
Lemma k_Lin enc N coeff nm : keeps (fun k => m0 <= lc_mod k) (LinearCombinatorNetwork enc N coeff nm).
Proof.
  unfold LinearCombinatorNetwork. kall. ksub k_Sync2. ksub k_Sub. kall.
  eapply keeps_bind with (Q := fun _ => True).
  - apply keeps_fold; auto. intros acc i _. unfold lin_iter. destruct (nth_error coeff i); [|apply keeps_err]. cbv zeta.
    destruct (ngtb _ _); kall; apply keeps_ret; auto.
  - intros r _. kall.
Qed.
Lemma k_Adder enc nm : keeps (fun k => m0 <= lc_mod (ad_lin k)) (AdderNetwork enc nm).
Proof. unfold AdderNetwork. ksub k_Lin. kall. Qed.
Lemma k_Exp enc nm : keeps (fun k => m0 <= ex_mod k /\ n0 <= ex_input k /\ n0 <= ex_output k) (ExponentialNetwork enc nm).
Proof. unfold ExponentialNetwork. kall. Qed.
Lemma k_Log enc nm : keeps (fun k => m0 <= lg_mod k) (LogNetwork enc nm).
Proof. unfold LogNetwork. kall. Qed.
Lemma k_Mul enc nm : keeps (fun k => m0 <= mu_mod k /\ n0 <= mu_input1 k /\ n0 <= mu_input2 k /\ n0 <= mu_output k) (MultiplierNetwork enc nm).
Proof. unfold MultiplierNetwork. kall. Qed.
Lemma k_LogSync enc nm : keeps (fun k => m0 <= ls_mod k /\ n0 <= ls_output1 k /\ n0 <= ls_output2 k) (LogAndSyncNetwork enc nm).
Proof. unfold LogAndSyncNetwork. kall. Qed.
Lemma k_Div enc nm : keeps (fun k => m0 <= dv_mod k) (DivNetwork enc nm).
Proof. unfold DivNetwork. kall. ksub k_LogSync. ksub k_Sub. ksub k_Exp. kall. Qed.
Lemma k_signs a b c d e f g h : n0 <= a -> n0 <= b -> n0 <= c -> n0 <= d -> n0 <= e -> n0 <= f -> n0 <= g -> n0 <= h ->
  keeps (fun _ => True) (connect_signs a b c d e f g h).
Proof. intros. unfold connect_signs. kall. Qed.
Lemma k_signo a b c d e f : n0 <= a -> n0 <= b -> n0 <= c -> n0 <= d -> n0 <= e -> n0 <= f ->
  keeps (fun _ => True) (connect_sign_outputs a b c d e f).
Proof. intros. unfold connect_sign_outputs. kall. Qed.
Ltac ksg :=
  match goal with
  | |- keeps _ (bbind (connect_signs _ _ _ _ _ _ _ _) _) => eapply keeps_bind; [apply k_signs; kfin|cbv beta; intros ? _]
  | |- keeps _ (bbind (connect_sign_outputs _ _ _ _ _ _) _) => eapply keeps_bind; [apply k_signo; kfin|cbv beta; intros ? _]
  end.
Lemma k_SMul enc nm : keeps (fun k => m0 <= sx_mod k) (SignedMultiplierNetwork enc nm).
Proof. unfold SignedMultiplierNetwork. kall. ksub k_Mul. kall. ksg. kall. ksg. kall. Qed.
Lemma k_Norm enc f nm : keeps (fun k => m0 <= sn_mod k) (SignedMultiplierNormNetwork enc f nm).
Proof. unfold SignedMultiplierNormNetwork. kall. ksub k_Mul. kall. ksub k_ScalarMul. kall. ksg. kall. ksg. kall. Qed.
Lemma k_create enc nm r : keeps (fun _ => True) (create enc nm r).
Proof.
  destruct r; cbn [create];
    (eapply keeps_bind with (Q := fun _ => True); [eapply keeps_weak; [first
      [apply k_Constant|apply k_SConstant|apply k_Memory|apply k_IMemory|apply k_SMemory|apply k_Sync|apply k_Sub|apply k_Adder
      |apply k_Lin|apply k_ScalarMul|apply k_Flip|apply k_Exp|apply k_Log|apply k_Mul|apply k_SMul|apply k_Norm|apply k_Div|idtac]|auto]
      |intros ? _; apply keeps_ret; auto]).
  unfold IntegratorNetwork. kall. ksub k_SConstant. apply keeps_err with (Q := fun _ => True).
Qed.

Lemma conf_listed w : conf w -> forall f m l, m0 <= m -> module_neurons f w m = Ok l -> forall n, In n l -> n0 <= n.
Proof.
  intros C. induction f as [|f IH]; intros m l Hm E; [discriminate|]. cbn [module_neurons] in E.
  destruct (nth_error (w_mods w) m) as [md|] eqn:Em; [|discriminate].
  destruct (cf_d _ C m md Hm Em) as [Hn Hs].
  assert (HF : forall subs acc r, (forall s, In s subs -> m0 <= s) -> (forall n, In n acc -> n0 <= n) ->
     rfold (fun acc s => let* l := module_neurons f w s in Ok (acc ++ l)) subs acc = Ok r -> forall n, In n r -> n0 <= n).
  { induction subs as [|s subs IHs]; intros acc r HS HA Er; [injection Er as <-; auto|]. cbn [rfold] in Er.
    destruct (module_neurons f w s) as [l1|] eqn:E1; cbn [rbind] in Er; [|discriminate].
    apply (IHs (acc ++ l1) r); auto; [intros s' Hs'; apply HS; right; auto|]. intros n Hin. apply in_app_iff in Hin as [Hin|Hin]; auto.
    eapply IH; [|exact E1|exact Hin]. apply HS. left; auto. }
  destruct (rfold _ (m_subs md) []) as [subs|] eqn:Er; cbn [rbind] in E; [|discriminate]. injection E as <-.
  intros n Hin. apply in_app_iff in Hin as [Hin|Hin]; auto. eapply HF; [exact Hs| |exact Er|exact Hin]. intros ? [].
Qed.
End Conf.

(** old modules list what they listed *)
Lemma old_listed w w' : inv w -> (forall j, j < List.length (w_mods w) -> nth_error (w_mods w') j = nth_error (w_mods w) j) ->
  List.length (w_mods w) <= List.length (w_mods w') ->
  forall j, j < List.length (w_mods w) -> neurons_of w' j = neurons_of w j.
Proof.
  intros I HO HL j Hj. unfold neurons_of.
  assert (HE : forall f k, k < List.length (w_mods w) -> module_neurons f w' k = module_neurons f w k).
  { induction f as [|f IH]; intros k Hk; auto. cbn [module_neurons]. rewrite (HO k Hk).
    destruct (nth_error (w_mods w) k) as [md|] eqn:Ek; auto.
    destruct (i_mod _ I k md Ek) as [Hs _].
    assert (HF : forall subs acc, (forall s, In s subs -> k < s < List.length (w_mods w)) ->
      rfold (fun acc s => let* l := module_neurons f w' s in Ok (acc ++ l)) subs acc = rfold (fun acc s => let* l := module_neurons f w s in Ok (acc ++ l)) subs acc).
    { induction subs as [|s subs IHs]; intros acc HS; auto. cbn [rfold]. rewrite IH by (apply HS; left; auto).
      destruct (module_neurons f w s); cbn [rbind]; auto. apply IHs. intros; apply HS; right; auto. }
    rewrite HF; auto. }
  rewrite HE by auto. destruct (module_neurons_ok w I (S (List.length (w_mods w))) j Hj ltac:(lia)) as (l & E & _).
  rewrite E. apply (module_neurons_fuel w _ _ _ E). lia.
Qed.

Lemma built_self w w' m k L enc nm r : inv w -> create enc nm r w = Ok (m, w') -> built w w' m L ->
  List.length (w_neurons w') = List.length (w_neurons w) + k -> self_contained w w' m k /\ inv w'.
Proof.
  intros I E [B1 B2 B3 B4 B5 B6 B7] EN. split; auto.
  destruct (k_create w enc nm r w m w' (conf_refl w) E) as [C _].
  constructor.
  - destruct (x_nrn _ _ B2) as [l El]. exists l. rewrite El, app_length in EN. split; auto. split; [lia|].
    intros nr Hin. apply In_nth_error in Hin as [i Hi]. apply (i_prm _ B1 (List.length (w_neurons w) + i)).
    rewrite El, nth_error_app2 by lia. replace (_ + i - _) with i by lia. auto.
  - destruct (cf_y _ _ C) as (L' & E' & HL). exists L'. split; auto. intros y Hy.
    destruct (HL y Hy). destruct (i_syn _ B1 y) as (P & Q & _); [rewrite E'; apply in_app_iff; auto|]. lia.
  - destruct (covers w' m B1 B5 B4) as (keys & Ek & HB & HC). exists keys. split; auto. intros n. split.
    + intros Hin. split; auto. eapply (conf_listed w w' C); [|exact Ek|exact Hin]. lia.
    + intros [Hn1 Hn2]. destruct (i_nrn _ B1 n Hn2) as (j & md & Ej & Hin). apply (HC j md n); auto.
      destruct (Nat.lt_ge_cases j m) as [Hl|]; auto. exfalso. rewrite B7 in Ej by auto.
      destruct (i_mod _ I j md Ej) as [_ Hb]. specialize (Hb n Hin). lia.
  - apply old_listed; auto; [rewrite <- B3; auto|lia].
  - lia.
Qed.

(** ** Refusals *)
Lemma go_wacc0 {A} enc (f : T -> B T A) w : neqb (Tmax enc) nzero = true -> bbind (mk_wacc enc) f w = Err EZeroDiv.
Proof. intros E. unfold mk_wacc, bbind, bres, pdiv. rewrite E. reflexivity. Qed.
Lemma go_wbar0 {A} enc (f : T -> B T A) w : neqb (Tcod enc) nzero = true -> bbind (mk_wacc_bar enc) f w = Err EZeroDiv.
Proof. intros E. unfold mk_wacc_bar, bbind, bres, pdiv. rewrite E. reflexivity. Qed.
Lemma bbind_err {A D} (b : B T A) (f : A -> B T D) w e : b w = Err e -> bbind b f w = Err e.
Proof. intros E. unfold bbind. rewrite E. reflexivity. Qed.
Ltac zstep := first [rewrite bbind_newmod|rewrite bbind_addn|rewrite bbind_connect|rewrite bbind_addsub]; cbv beta.
Ltac zall := repeat zstep.
Ltac zero := zall; (apply go_wacc0 || apply go_wbar0); assumption.

Section Zero.
Variable enc : encoder T.
Section M.
Hypothesis Z : neqb (Tmax enc) nzero = true.
Lemma z_Memory nm w : MemoryNetwork enc nm w = Err EZeroDiv.
Proof. unfold MemoryNetwork. zero. Qed.
Lemma z_IMemory nm w : InvertingMemoryNetwork enc nm w = Err EZeroDiv.
Proof. unfold InvertingMemoryNetwork. zero. Qed.
Lemma z_SMemory nm w : SignedMemoryNetwork enc nm w = Err EZeroDiv.
Proof. unfold SignedMemoryNetwork. zall. apply bbind_err, z_Memory. Qed.
Lemma z_Flip nm w : SignFlipperNetwork enc nm w = Err EZeroDiv.
Proof. unfold SignFlipperNetwork. zero. Qed.
Lemma z_Sync N nm w : SynchronizerNetwork enc (S N) nm w = Err EZeroDiv.
Proof.
  unfold SynchronizerNetwork. zall. apply bbind_err. cbn [seq bfold]. apply bbind_err. unfold sync_iter. zall. apply bbind_err, z_Memory.
Qed.
Lemma z_ScalarMul f nm w : ScalarMultiplierNetwork f enc nm w = Err EZeroDiv.
Proof. unfold ScalarMultiplierNetwork. zero. Qed.
Lemma z_Lin N coeff nm w : LinearCombinatorNetwork enc N coeff nm w = Err EZeroDiv.
Proof. unfold LinearCombinatorNetwork. zero. Qed.
Lemma z_Adder nm w : AdderNetwork enc nm w = Err EZeroDiv.
Proof. unfold AdderNetwork. apply bbind_err, z_Lin. Qed.
Lemma z_Div nm w : DivNetwork enc nm w = Err EZeroDiv.
Proof. unfold DivNetwork. zero. Qed.
End M.
Section C.
Hypothesis Z : neqb (Tcod enc) nzero = true.
Lemma zc_Exp nm w : ExponentialNetwork enc nm w = Err EZeroDiv.
Proof. unfold ExponentialNetwork. zero. Qed.
Lemma zc_Log nm w : LogNetwork enc nm w = Err EZeroDiv.
Proof. unfold LogNetwork. zero. Qed.
Lemma zc_Mul nm w : MultiplierNetwork enc nm w = Err EZeroDiv.
Proof. unfold MultiplierNetwork. zero. Qed.
Lemma zc_SMul nm w : SignedMultiplierNetwork enc nm w = Err EZeroDiv.
Proof. unfold SignedMultiplierNetwork. zall. apply bbind_err, zc_Mul. Qed.
Lemma zc_Norm f nm w : SignedMultiplierNormNetwork enc f nm w = Err EZeroDiv.
Proof. unfold SignedMultiplierNormNetwork. zall. apply bbind_err, zc_Mul. Qed.
Lemma zc_Integrator c l p w : IntegratorNetwork enc c l p w = Err EZeroDiv.
Proof. unfold IntegratorNetwork. zall. apply (go_wbar0 enc). assumption. Qed.
Lemma zc_Flip nm w : SignFlipperNetwork enc nm w = Err EZeroDiv.
Proof.
  destruct (neqb (Tmax enc) nzero) eqn:E; [apply z_Flip; auto|].
  unfold SignFlipperNetwork. zall. rewrite go_wacc by auto. zero.
Qed.
Lemma zc_Div nm w : DivNetwork enc nm w = Err EZeroDiv.
Proof.
  destruct (neqb (Tmax enc) nzero) eqn:E; [apply z_Div; auto|].
  unfold DivNetwork. zall. rewrite go_wacc by auto. zero.
Qed.
End C.
Lemma z_Norm f nm w : inv w -> neqb (Tmax enc) nzero = true -> SignedMultiplierNormNetwork enc f nm w = Err EZeroDiv.
Proof.
  intros I Z. destruct (neqb (Tcod enc) nzero) eqn:E; [apply zc_Norm; auto|].
  unfold SignedMultiplierNormNetwork. zall.
  destruct (Multiplier_built enc (Some "mul_net"%string) (w_newmod w nm) (inv_newmod _ _ I) E) as (mn & w1 & E1 & _).
  rewrite (bbind_ok _ _ _ _ _ E1). zall. apply bbind_err. apply z_ScalarMul; auto.
Qed.
Lemma t_Integrator c l p w : inv w -> neqb (Tcod enc) nzero = false -> IntegratorNetwork enc c l p w = Err EType.
Proof.
  intros I E. unfold IntegratorNetwork. rewrite bbind_newmod.
  assert (E1 : bres (pdiv (nmul cVt ctm) (Tcod enc)) = mk_wacc_bar enc) by reflexivity. rewrite E1, go_wbar by auto. clear E1. zall.
  match goal with |- bbind (SignedConstantNetwork ?e ?v ?n) _ ?w1 = _ =>
    assert (I1 : inv w1); [|destruct (SignedConstant_built e v n w1 I1) as (k & w2 & E2 & _)] end.
  { assert (HL : forall w m nm, List.length (w_mods (w_addn w m nm)) = List.length (w_mods w)) by (intros; cbn; apply upd_len).
    repeat (apply inv_addn; [|rewrite ?HL; cbn; rewrite app_length; cbn; lia]). apply inv_newmod; auto. }
  rewrite (bbind_ok _ _ _ _ _ E2). reflexivity.
Qed.
Lemma lin_iter_total wacc N coeff m sync p q acc i c w : nth_error coeff i = Some c ->
  exists acc' w', lin_iter enc wacc N coeff m sync p q acc i w = Ok (acc', w').
Proof. intros E. unfold lin_iter. rewrite E. cbv zeta. zall. eexists. eexists. reflexivity. Qed.
Lemma lin_fold_index wacc N coeff m sync p q : forall n i acc w, i <= List.length coeff -> List.length coeff < i + n ->
  bfold (lin_iter enc wacc N coeff m sync p q) (seq i n) acc w = Err EIndex.
Proof.
  induction n as [|n IH]; intros i acc w Hi Hn; [lia|]. cbn [seq bfold].
  destruct (nth_error coeff i) as [c|] eqn:E.
  - destruct (lin_iter_total wacc N coeff m sync p q acc i c w E) as (acc' & w' & E').
    rewrite (bbind_ok _ _ _ _ _ E'). apply IH; [|lia]. assert (i < List.length coeff) by (apply nth_error_Some; congruence). lia.
  - apply bbind_err. unfold lin_iter. rewrite E. reflexivity.
Qed.
Ltac go_start :=
  match goal with
  | HI : inv ?w |- context [bbind (new_module ?nm) ?f ?w] =>
      let w1 := fresh "w" in let E := fresh "E" in let H1 := fresh "HA" in
      destruct (go_new w nm f HI) as (w1 & E & H1); rewrite E; clear E; cbv beta
  end.
Lemma x_Lin N coeff nm w : inv w -> neqb (Tmax enc) nzero = false -> List.length coeff < N ->
  LinearCombinatorNetwork enc N coeff nm w = Err EIndex.
Proof.
  intros I HT HN. unfold LinearCombinatorNetwork. go_start. rewrite go_wacc by auto. repeat go_step.
  match goal with HA : at_ _ _ _ _ _ ?w1 |- context [bbind (SynchronizerNetwork enc 2 ?nm) ?f _] =>
    destruct (Synchronizer_built enc 2 nm w1 (a_inv _ _ _ _ _ _ HA) HT) as (sy & wS & E & HB & _) end.
  rewrite (bbind_ok _ _ _ _ _ E).
  destruct (Subtractor_built enc (Some "sub_net"%string) wS (b_inv _ _ _ _ HB)) as (sb & wB & E2 & _).
  rewrite (bbind_ok _ _ _ _ _ E2). zall. apply bbind_err. apply lin_fold_index; lia.
Qed.
End Zero.

Ltac go_start :=
  match goal with
  | HI : inv ?w |- context [bbind (new_module ?nm) ?f ?w] =>
      let w1 := fresh "w" in let E := fresh "E" in let H1 := fresh "HA" in
      destruct (go_new w nm f HI) as (w1 & E & H1); rewrite E; clear E; cbv beta
  end.
Lemma Sync0_built enc nm w : inv w -> exists k w', SynchronizerNetwork enc 0 nm w = Ok (k, w') /\ built w w' (sy_mod k) [] /\
  List.length (w_neurons w') = List.length (w_neurons w) + 1.
Proof.
  intros I. unfold SynchronizerNetwork. go_start. repeat go_step. cbn [seq bfold].
  match goal with HA : at_ _ _ _ _ [] _ |- _ => destruct (go_end _ _ _ _ _ HA) as [B1 B2] end.
  eexists. eexists. split; [reflexivity|]. split; [exact B1|lia].
Qed.

Ltac destruct_conjs_end HL := repeat match type of HL with _ /\ _ => destruct HL as [_ HL] end.
(** every library call, in any well-formed heap *)
Theorem create_spec enc nm r w : inv w ->
  match refusal enc r with
  | None => exists m w', create enc nm r w = Ok (m, w') /\ self_contained w w' m (size r) /\ inv w'
  | Some e => create enc nm r w = Err e
  end.
Proof.
  intros I. unfold refusal.
  destruct (neqb (Tmax enc) nzero) eqn:ZM; destruct (neqb (Tcod enc) nzero) eqn:ZC;
    destruct r as [v|v| | | |N| | |N coeff|f| | | | | |f| |c l p]; cbn [uses_Tmax uses_Tcod andb orb];
    try (cbn [create]; apply bbind_err; first [apply z_Memory; assumption
      |apply z_IMemory; assumption
      |apply z_SMemory; assumption
      |apply z_Adder; assumption
      |apply z_Lin; assumption
      |apply z_ScalarMul; assumption
      |apply z_Flip; assumption
      |apply z_Div; assumption
      |apply zc_Exp; assumption
      |apply zc_Log; assumption
      |apply zc_Mul; assumption
      |apply zc_SMul; assumption
      |apply zc_Norm; assumption
      |apply zc_Flip; assumption
      |apply zc_Div; assumption
      |apply z_Norm; assumption
      |apply zc_Integrator; assumption
      |apply t_Integrator; assumption]).
  all: try (match goal with |- context [RSynchronizer _] => idtac end; destruct N as [|N]; cbn [Nat.eqb negb andb orb]; [|try (cbn [create]; apply bbind_err; apply z_Sync; assumption)]).
  all: try (destruct (Nat.ltb_spec (List.length coeff) N); [cbn [create]; apply bbind_err; apply x_Lin; assumption|]).
  all: match goal with |- exists m w', create ?e ?n ?q ?w = _ /\ _ =>
    lazymatch q with
    | RConstant ?v => destruct (Constant_built e v n w I) as (k & w' & E & HB & _ & HL)
    | RSignedConstant ?v => destruct (SignedConstant_built e v n w I) as (k & w' & E & HB & _ & HL)
    | RMemory => destruct (Memory_built e n w I ZM) as (k & w' & E & HB & _ & HL)
    | RInvertingMemory => destruct (InvMemory_built e n w I ZM) as (k & w' & E & HB & _ & HL)
    | RSignedMemory => destruct (SignedMemory_built e n w I ZM) as (k & w' & E & HB & HL)
    | RSynchronizer 0 => destruct (Sync0_built e n w I) as (k & w' & E & HB & HL)
    | RSynchronizer ?N => destruct (Synchronizer_built e N n w I ZM) as (k & w' & E & HB & HL)
    | RSubtractor => destruct (Subtractor_built e n w I) as (k & w' & E & HB & _ & HL)
    | RAdder => destruct (Adder_built e n w I ZM) as (k & w' & E & HB & HL)
    | RLinearCombinator ?N ?c => destruct (LinComb_built e N c n w I ZM ltac:(lia)) as (k & w' & E & HB & HL)
    | RScalarMultiplier ?f => destruct (ScalarMul_built f e n w I ZM) as (k & w' & E & HB & _ & HL)
    | RSignFlipper => destruct (SignFlipper_built e n w I ZM ZC) as (k & w' & E & HB & _ & HL)
    | RExponential => destruct (Exp_built e n w I ZC) as (k & w' & E & HB & _ & HL)
    | RLog => destruct (Log_built e n w I ZC) as (k & w' & E & HB & _ & HL)
    | RMultiplier => destruct (Multiplier_built e n w I ZC) as (k & w' & E & HB & _ & HL)
    | RSignedMultiplier => destruct (SignedMultiplier_built e n w I ZC) as (k & w' & E & HB & HL)
    | RSignedMultiplierNorm ?f => destruct (SignedMultNorm_built e f n w I ZM ZC) as (k & w' & E & HB & HL)
    | RDiv => destruct (Div_built e n w I ZM ZC) as (k & w' & E & HB & HL)
    end;
    assert (EC : create e n q w = Ok (ltac:(match type of HB with built _ _ ?m _ => exact m end), w')) by (cbn [create]; rewrite (bbind_ok _ _ _ _ _ E); reflexivity);
    eexists; eexists; split; [exact EC|]; eapply built_self; [exact I|exact EC|exact HB|cbn [size]; try (cbv zeta in HL; destruct_conjs_end HL); lia]
  end.
Qed.
End Lib.
