(** C53 and C65: histories of the web client, and the panics of its buttons. *)
From Coq Require Import Lia ZifyBool.
From Verif Require Import Base BaseFacts Regex Name SpecName NameFacts SpecSource Artifact Web SpecWeb WebRoute PropRoute WebFacts.

Section Histories.
  Context {H : Type} (heqb : H -> H -> bool) (dig : char -> bool) (lim : N).
  Local Notation get := (im_get N.eqb).
  Let nspec := N.eqb_eq.

  (** At most one request is on its way. *)
  Theorem C53_one_request : forall p v h c (q : list (req H)), history heqb dig lim p v h (c, q) -> length q <= 1.
  Proof.
    intros p v h c q Hh. apply inv_history in Hh. pose proof (wi_one _ _ Hh) as E. cbn in E. subst q. unfold tasks. destruct (c_task c); cbn; lia.
  Qed.

  (** The request [r] was sent by pressing Save on [id] in the state [c0]. *)
  Definition sent_by (id : N) (c0 : client H) (r : req H) : Prop := exists c1, act heqb dig lim (USave id) c0 = Ok (c1, [r]).

  Lemma save_sends id c0 e0 op : c_task c0 = None -> get id (c_edits c0) = Some e0 -> edit_op e0 = Ok op -> sent_by id c0 (RModify (c_next c0) [op]).
  Proof. intros T G E. unfold sent_by. cbn [act update update_model]. unfold start_send_update. rewrite T. cbn [res_map]. rewrite G, E. cbn. eauto. Qed.

  (** What typing in a field and the buttons for links do to a form: the field gets the text typed, a
      link is added at the end, replaced, or taken out at its place; the rest of the form stays. *)
  Inductive typed : field -> edit H -> edit H -> Prop :=
  | ty_name o n f ps d t x : typed (FName x) (mkEdit o n f ps d t) (mkEdit o x f ps d t)
  | ty_file o n f ps d t x : typed (FFile x) (mkEdit o n f ps d t) (mkEdit o n x ps d t)
  | ty_done o n f ps d t x : typed (FDone x) (mkEdit o n f ps d t) (mkEdit o n f ps x t)
  | ty_text o n f ps d t x : typed (FText x) (mkEdit o n f ps d t) (mkEdit o n f ps d x)
  | ty_add o n f ps d t : typed FPartAdd (mkEdit o n f ps d t) (mkEdit o n f (ps ++ [[]]) d t)
  | ty_set o n f ps y qs d t x : typed (FPartSet (length ps) x) (mkEdit o n f (ps ++ y :: qs) d t) (mkEdit o n f (ps ++ x :: qs) d t)
  | ty_del o n f ps y qs d t : typed (FPartDel (length ps)) (mkEdit o n f (ps ++ y :: qs) d t) (mkEdit o n f (ps ++ qs) d t).
  Lemma list_set_at {A} i (x : A) : forall l m, list_set i x l = Some m -> exists ps y qs, l = ps ++ y :: qs /\ m = ps ++ x :: qs /\ i = length ps.
  Proof.
    induction i as [|i IH]; intros [|y l] m E; try discriminate E; cbn [list_set] in E; [injection E as <-; exists [], y, l; auto|].
    destruct (list_set i x l) as [m'|] eqn:E'; [|discriminate E]. injection E as <-. destruct (IH l m' E') as (ps & z & qs & -> & -> & ->). exists (y :: ps), z, qs. auto.
  Qed.
  Lemma list_del_at {A} i : forall (l m : list A), list_del i l = Some m -> exists ps y qs, l = ps ++ y :: qs /\ m = ps ++ qs /\ i = length ps.
  Proof.
    induction i as [|i IH]; intros [|y l] m E; try discriminate E; cbn [list_del] in E; [injection E as <-; exists [], y, l; auto|].
    destruct (list_del i l) as [m'|] eqn:E'; [|discriminate E]. injection E as <-. destruct (IH l m' E') as (ps & z & qs & -> & -> & ->). exists (y :: ps), z, qs. auto.
  Qed.
  Lemma set_field_typed (ed ed' : edit H) f : set_field ed f = Ok ed' -> typed f ed ed'.
  Proof.
    destruct ed as [o n fl ps d t]. destruct f; cbn [set_field set_partof e_orig e_name e_file e_partof e_done e_text].
    1-5: intros [= <-]; constructor.
    - destruct (list_set i x ps) as [m|] eqn:E; cbn; [|discriminate]. intros [= <-]. destruct (list_set_at i x ps m E) as (a & y & b & -> & -> & ->). constructor.
    - destruct (list_del i ps) as [m|] eqn:E; cbn; [|discriminate]. intros [= <-]. destruct (list_del_at i ps m E) as (a & y & b & -> & -> & ->). constructor.
  Qed.

  (** What one event does to an edit: nothing, or it was typed in, or it was cancelled, or the
      answer to a save of it came; that save was pressed earlier and it carried the content [e0] the
      edit had then. *)
  Theorem C53_kept : forall p v h c q e c' q' id ed,
    history heqb dig lim p v h (c, q) -> wstep heqb dig lim (c, q) e (c', q') -> get id (c_edits c) = Some ed ->
    get id (c_edits c') = Some ed \/
    (exists f ed', e = EUser (UType id f) /\ typed f ed ed' /\ get id (c_edits c') = Some ed') \/
    (get id (c_edits c') = None /\
      (e = EUser (UCancel id) \/
       exists j op p' c0 e0, e = EAnswer (RModify j [op]) (MProject j p') /\
         In (EUser (USave id), (c0, [])) h /\ sent_by id c0 (RModify j [op]) /\ get id (c_edits c0) = Some e0 /\ edit_op e0 = Ok op)).
  Proof.
    intros p v h c q e c' q' id ed Hh S G. pose proof (inv_history _ _ _ _ _ _ _ Hh) as I.
    assert (Hist : forall x c0, In (x, (c0, @nil (req H))) h -> c_task c0 = None).
    { clear -Hh. remember (c, q) as w eqn:E. clear E. revert w Hh. induction 1 as [|h w e w' Hh IH S]; intros x c0 I; [destruct I|]. destruct I as [I|I]; [|eauto].
      injection I as _ ->. apply inv_history in Hh. pose proof (wi_one _ _ Hh) as E. apply tasks_none. now symmetry. }
    inversion S as [c1 q1 u c1' sent E|c1 q1 q2 r m c1' sent A E]; subst.
    - destruct u as [| |i|i|i f| |x|ids|]; cbn [act] in E.
      + left. unfold open_edit in E. destruct (from_hash dig lim (hash_edit (c_next c))) as [w| |]; try discriminate. cbn in E. injection E as <- <-. cbn.
        rewrite (get_insert_other N.eqb (fun x => x) nspec); auto. intros X. cbv beta in X. rewrite <- X, get_fresh in G by apply I. discriminate.
      + left. unfold open_edit in E. destruct (from_hash dig lim (hash_edit (c_next c))) as [w| |]; try discriminate. cbn [res_bind update update_batch update_model handle_start take_next c_view c_project] in E.
        destruct (c_view c) as [|n|i|]; try discriminate. destruct (im_get name_eqb n (c_project c)) as [a|]; [|discriminate]. cbn in E. injection E as <- <-. cbn.
        rewrite (get_insert_other N.eqb (fun x => x) nspec); auto. intros X. cbv beta in X. rewrite <- X, get_fresh in G by apply I. discriminate.
      + left. cbn [update update_model] in E. unfold start_send_update in E. destruct (c_task c) as [r|] eqn:T.
        * assert (E' : c' = push_logs 1 c) by congruence. subst c'. destruct (push_logs_fields 1 c) as (_ & _ & _ & _ & -> & _). exact G.
        * destruct (res_map _ [i]) as [ops| |]; try discriminate. cbn in E. injection E as <- <-. exact G.
      + cbn [update update_model] in E. unfold quiet in E. destruct (complete_editing heqb dig lim i c) as [c1| |] eqn:Ec; try discriminate. injection E as <- <-.
        apply complete_fields in Ec as (_ & _ & _ & _ & _ & _ & _ & _ & X); [|apply I]. rewrite (X id). destruct (N.eqb_spec i id) as [->|]; auto.
      + cbn [update update_model] in E. unfold quiet, handle_edit in E. destruct (get i (c_edits c)) as [ed0|] eqn:G0; [|discriminate].
        destruct (set_field ed0 f) as [ed'| |] eqn:Ef; try discriminate. cbn in E. injection E as <- <-. cbn. rewrite (get_insert N.eqb (fun x => x) nspec).
        destruct (N.eqb_spec i id) as [->|]; auto. right. left. rewrite G in G0. injection G0 as <-. apply set_field_typed in Ef. eauto.
      + left. cbn [update update_model] in E. unfold start_fetch_project in E.
        assert (X : c_edits c' = c_edits c); [|now rewrite X]. destruct (push_logs_fields 1 c) as (_ & _ & _ & _ & Ee & _).
        destruct (c_static c); [congruence|]. destruct (c_task c); [congruence|]. injection E as <- <-. reflexivity.
      + left. destruct (from_hash dig lim x) as [w| |]; try discriminate. cbn in E. injection E as <- <-. exact G.
      + left. cbn in E. injection E as <- <-. exact G.
      + left. cbn in E. injection E as <- <-. exact G.
    - assert (Q : q1 = [] /\ q2 = [] /\ c_task c = Some r).
      { pose proof (wi_one _ _ I) as Q. cbn [fst snd] in Q. unfold tasks in Q. destruct (c_task c) as [r'|]; [|now destruct q1].
        destruct q1 as [|a q1]; [injection Q as -> ->; auto|]. injection Q as _ Q. now destruct q1. }
      destruct Q as (-> & -> & T). cbn [app] in *. pose proof (wi_task _ _ I) as Tk. cbn [fst] in Tk. rewrite T in Tk.
      assert (Er : forall k, update heqb dig lim (MError k) c = Ok (c', sent) -> get id (c_edits c') = Some ed).
      { intros k Ek. cbn [update update_model] in Ek. assert (X : c_edits c' = c_edits (push_logs k c)) by (injection Ek as <- _; reflexivity).
        rewrite X. destruct (push_logs_fields k c) as (_ & _ & _ & _ & -> & _). exact G. }
      destruct r as [|j b|j ops], m; cbn [answers] in A; try contradiction; try (left; now apply (Er logs)).
      + left. cbn [update update_model] in E. destruct static; [injection E as <- <-; exact G|]. unfold start_fetch_project in E. cbn in E. injection E as <- <-. exact G.
      + left. subst. cbn [update update_model] in E. unfold quiet, handle_recv_project in E. cbn [set_task set_project c_updating] in E. destruct Tk as [_ Tk]. rewrite Tk in E. injection E as <- <-. exact G.
      + subst. destruct Tk as (i & c0 & e0 & op & Ih & <- & G0 & Eo & -> & Gu). cbn [update update_model] in E. unfold quiet, handle_recv_project in E. cbn [set_task set_project c_updating] in E. rewrite Gu in E.
        cbn [complete_all] in E. match type of E with context [complete_editing _ _ _ _ ?x] => set (c2 := x) in E end.
        destruct (complete_editing heqb dig lim i c2) as [c3| |] eqn:Ec; try discriminate. injection E as <- <-.
        apply complete_fields in Ec as (_ & _ & _ & _ & _ & _ & _ & _ & X); [|apply I]. rewrite (X id). destruct (N.eqb_spec i id) as [->|]; auto. right. right. split; auto. right.
        exists (c_next c0), op, p0, c0, e0. repeat split; auto. apply (save_sends id c0 e0 op); auto. eapply Hist; eauto.
  Qed.

  (** A form has the content of an artifact. *)
  Definition form_of (a : sart H) (ed : edit H) : Prop :=
    e_orig ed = Some (sa_id a) /\ e_name ed = n_raw (sa_name a) /\ e_file ed = sa_file a /\ e_partof ed = map n_raw (sa_partof a) /\
    (forall d, sa_done a = Some d -> e_done ed = d) /\ (sa_done a = None -> e_done ed = []) /\ e_text ed = sa_text a.
  (** A form that was not there is opened by the button for a new artifact, and is empty, or by the
      button for editing, and has the content of the artifact shown. *)
  Theorem C53_opened : forall p v h c q e c' q' id ed,
    history heqb dig lim p v h (c, q) -> wstep heqb dig lim (c, q) e (c', q') -> get id (c_edits c) = None -> get id (c_edits c') = Some ed ->
    (e = EUser UCreate /\ ed = mkEdit None [] [] [] [] []) \/
    (e = EUser UEdit /\ exists n a, c_view c = VArtifact n /\ im_get name_eqb n (c_project c) = Some a /\ form_of a ed).
  Proof.
    intros p v h c q e c' q' id ed Hh S N G. pose proof (inv_history _ _ _ _ _ _ _ Hh) as I.
    assert (K : c_edits c' = c_edits c -> False) by (intros X; rewrite X, N in G; discriminate G).
    inversion S as [c1 q1 u c1' sent E|c1 q1 q2 r m c1' sent A E]; subst.
    - destruct u as [| |i|i|i f| |x|ids|]; cbn [act] in E.
      + left. split; auto. unfold open_edit in E. destruct (from_hash dig lim (hash_edit (c_next c))) as [w| |]; try discriminate. cbn in E. injection E as <- <-. cbn in G.
        rewrite (get_insert N.eqb (fun x => x) nspec) in G. destruct (N.eqb (c_next c) id); [injection G as <-; reflexivity|congruence].
      + right. split; auto. unfold open_edit in E. destruct (from_hash dig lim (hash_edit (c_next c))) as [w| |]; try discriminate. cbn [res_bind update update_batch update_model handle_start take_next c_view c_project] in E.
        destruct (c_view c) as [|n|i|]; try discriminate. destruct (im_get name_eqb n (c_project c)) as [a|] eqn:Ea; [|discriminate]. cbn in E. injection E as <- <-. cbn in G.
        rewrite (get_insert N.eqb (fun x => x) nspec) in G. destruct (N.eqb (c_next c) id); [|congruence]. injection G as <-. exists n, a. split; auto. split; auto.
        unfold form_of, from_artifact. cbn. repeat split; auto; [intros d -> |intros -> ]; reflexivity.
      + cbn [update update_model] in E. unfold start_send_update in E. destruct (c_task c) as [r|] eqn:T.
        * assert (E' : c' = push_logs 1 c) by congruence. subst c'. destruct K. apply (push_logs_fields 1 c).
        * destruct (res_map _ [i]) as [ops| |]; try discriminate. cbn in E. injection E as <- <-. now destruct K.
      + cbn [update update_model] in E. unfold quiet in E. destruct (complete_editing heqb dig lim i c) as [c1| |] eqn:Ec; try discriminate. injection E as <- <-.
        apply complete_fields in Ec as (_ & _ & _ & _ & _ & _ & _ & _ & X); [|apply I]. rewrite (X id) in G. destruct (N.eqb i id); congruence.
      + cbn [update update_model] in E. unfold quiet, handle_edit in E. destruct (get i (c_edits c)) as [ed0|] eqn:G0; [|discriminate].
        destruct (set_field ed0 f) as [ed'| |] eqn:Ef; try discriminate. cbn in E. injection E as <- <-. cbn in G. rewrite (get_insert N.eqb (fun x => x) nspec) in G.
        destruct (N.eqb_spec i id) as [->|]; congruence.
      + destruct K. cbn [update update_model] in E. unfold start_fetch_project in E. destruct (push_logs_fields 1 c) as (_ & _ & _ & _ & Ee & _).
        destruct (c_static c); [congruence|]. destruct (c_task c); [congruence|]. injection E as <- <-. reflexivity.
      + destruct K. destruct (from_hash dig lim x) as [w| |]; try discriminate. cbn in E. injection E as <- <-. reflexivity.
      + destruct K. cbn in E. injection E as <- <-. reflexivity.
      + destruct K. cbn in E. injection E as <- <-. reflexivity.
    - exfalso. assert (Q : q1 = [] /\ q2 = [] /\ c_task c = Some r).
      { pose proof (wi_one _ _ I) as Q. cbn [fst snd] in Q. unfold tasks in Q. destruct (c_task c) as [r'|]; [|now destruct q1].
        destruct q1 as [|a q1]; [injection Q as -> ->; auto|]. injection Q as _ Q. now destruct q1. }
      destruct Q as (-> & -> & T). cbn [app] in *. pose proof (wi_task _ _ I) as Tk. cbn [fst] in Tk. rewrite T in Tk.
      assert (Er : forall k, update heqb dig lim (MError k) c = Ok (c', sent) -> False).
      { intros k Ek. cbn [update update_model] in Ek. assert (X : c_edits c' = c_edits (push_logs k c)) by (injection Ek as <- _; reflexivity).
        apply K. rewrite X. apply (push_logs_fields k c). }
      destruct r as [|j b|j ops], m; cbn [answers] in A; try contradiction; try (now apply (Er logs)).
      + cbn [update update_model] in E. destruct static; [injection E as <- <-; now apply K|]. unfold start_fetch_project in E. cbn in E. injection E as <- <-. now apply K.
      + subst. cbn [update update_model] in E. unfold quiet, handle_recv_project in E. cbn [set_task set_project c_updating] in E. destruct Tk as [_ Tk]. rewrite Tk in E. injection E as <- <-. now apply K.
      + subst. destruct Tk as (i & c0 & e0 & op & Ih & <- & G0 & Eo & -> & Gu). cbn [update update_model] in E. unfold quiet, handle_recv_project in E. cbn [set_task set_project c_updating] in E. rewrite Gu in E.
        cbn [complete_all] in E. match type of E with context [complete_editing _ _ _ _ ?x] => set (c2 := x) in E end.
        destruct (complete_editing heqb dig lim i c2) as [c3| |] eqn:Ec; try discriminate. injection E as <- <-.
        apply complete_fields in Ec as (_ & _ & _ & _ & _ & _ & _ & _ & X); [|apply I]. rewrite (X id) in G. destruct (N.eqb i id); [discriminate G|]. subst c2. cbn in G. congruence.
  Qed.


  (** The answer to a save removes the edit, whatever was typed since; the project is the answer. *)
  Theorem C53_saved : forall p v h c q j ops p' c' q',
    history heqb dig lim p v h (c, q) -> wstep heqb dig lim (c, q) (EAnswer (RModify j ops) (MProject j p')) (c', q') ->
    c_project c' = p' /\ q' = [] /\
    exists id c0 e0 op, In (EUser (USave id), (c0, [])) h /\ sent_by id c0 (RModify j ops) /\
      get id (c_edits c0) = Some e0 /\ edit_op e0 = Ok op /\ ops = [op] /\
      forall i, get i (c_edits c') = if N.eqb id i then None else get i (c_edits c).
  Proof.
    intros p v h c q j ops p' c' q' Hh S. pose proof (inv_history _ _ _ _ _ _ _ Hh) as I.
    assert (Hist : forall x c0, In (x, (c0, @nil (req H))) h -> c_task c0 = None).
    { clear -Hh. remember (c, q) as w eqn:E. clear E. revert w Hh. induction 1 as [|h w e w' Hh IH S]; intros x c0 I; [destruct I|]. destruct I as [I|I]; [|eauto].
      injection I as _ ->. apply inv_history in Hh. pose proof (wi_one _ _ Hh) as E. apply tasks_none. now symmetry. }
    inversion S as [|c1 q1 q2 r m c1' sent A E]; subst.
    assert (Q : q1 = [] /\ q2 = [] /\ c_task c = Some (RModify j ops)).
    { pose proof (wi_one _ _ I) as Q. cbn [fst snd] in Q. unfold tasks in Q. destruct (c_task c) as [r'|]; [|now destruct q1].
      destruct q1 as [|a q1]; [injection Q as -> ->; auto|]. injection Q as _ Q. now destruct q1. }
    destruct Q as (-> & -> & T). cbn [app] in *. pose proof (wi_task _ _ I) as Tk. cbn [fst] in Tk. rewrite T in Tk.
    destruct Tk as (i & c0 & e0 & op & Ih & <- & G0 & Eo & -> & Gu). cbn [update update_model] in E. unfold quiet, handle_recv_project in E. cbn [set_task set_project c_updating] in E. rewrite Gu in E.
    cbn [complete_all] in E. match type of E with context [complete_editing _ _ _ _ ?x] => set (c2 := x) in E end.
    destruct (complete_editing heqb dig lim i c2) as [c3| |] eqn:Ec; try discriminate. injection E as <- <-.
    apply complete_fields in Ec as (_ & _ & _ & _ & Ep & _ & _ & _ & X); [|apply I]. split; [now rewrite Ep|]. split; auto.
    exists i, c0, e0, op. repeat split; auto. apply (save_sends i c0 e0 op); auto. eapply Hist; eauto.
  Qed.

  (** An error: nothing is lost, and a save can be tried again. *)
  Theorem C53_error : forall p v h c q r k c' q',
    history heqb dig lim p v h (c, q) -> wstep heqb dig lim (c, q) (EAnswer r (MError k)) (c', q') ->
    c_edits c' = c_edits c /\ c_view c' = c_view c /\ c_project c' = c_project c /\ q' = [] /\
    forall id ed op, get id (c_edits c') = Some ed -> edit_op ed = Ok op -> exists j, sent_by id c' (RModify j [op]).
  Proof.
    intros p v h c q r k c' q' Hh S. pose proof (inv_history _ _ _ _ _ _ _ Hh) as I.
    inversion S as [|c1 q1 q2 r' m c1' sent A E]; subst.
    assert (Q : q1 = [] /\ q2 = []).
    { pose proof (wi_one _ _ I) as Q. cbn [fst snd] in Q. unfold tasks in Q. destruct (c_task c) as [r'|]; [|now destruct q1].
      destruct q1 as [|a q1]; [injection Q as -> ->; auto|]. injection Q as _ Q. now destruct q1. }
    destruct Q as (-> & ->). cbn [app] in *. cbn [update update_model] in E. assert (X : c' = set_task (push_logs k c) None /\ sent = []) by (split; congruence). destruct X as [-> ->]. 
    destruct (push_logs_fields k c) as (_ & E2 & E3 & _ & E5 & _). cbn [set_task c_edits c_view c_project]. rewrite E5. repeat split; auto.
    intros id ed op G Eo. exists (c_next (push_logs k c)). apply (save_sends id (set_task (push_logs k c) None) ed op); auto. cbn. now rewrite E5.
  Qed.

  (** While a request is on its way, Save and Sync send nothing and change nothing but the log. *)
  Theorem C53_busy : forall p v h c q u, history heqb dig lim p v h (c, q) -> q <> [] -> u = USync \/ (exists id, u = USave id) ->
    exists c', act heqb dig lim u c = Ok (c', []) /\ c_edits c' = c_edits c /\ c_view c' = c_view c /\ c_project c' = c_project c.
  Proof.
    intros p v h c q u Hh Q Hu. apply inv_history in Hh. pose proof (wi_one _ _ Hh) as E. cbn in E. unfold tasks in E. destruct (c_task c) as [r|] eqn:T; [|congruence].
    exists (push_logs 1 c). destruct (push_logs_fields 1 c) as (_ & E2 & E3 & _ & E5 & _). split; [|auto].
    destruct Hu as [->|[id ->]]; cbn [act update update_model].
    - unfold start_fetch_project. rewrite T. now destruct (c_static c).
    - unfold start_send_update. now rewrite T.
  Qed.

  (** If the first request fails, Sync never sends anything again. *)
  Theorem C53_stuck : forall p v h c q w0, history heqb dig lim p v h (c, q) -> In (EAnswer RInitial (MError 1), w0) h ->
    exists c', act heqb dig lim USync c = Ok (c', []).
  Proof.
    intros p v h c q w0 Hh I.
    assert (X : c_static c = true /\ c_task c <> Some RInitial).
    { remember (c, q) as w eqn:Ew. assert (E : c = fst w) by now subst. rewrite E. clear c q Ew E.
      assert (J : (c_task (fst w) = Some RInitial -> c_static (fst w) = true) /\ (In (EAnswer RInitial (MError 1), w0) h -> c_static (fst w) = true /\ c_task (fst w) <> Some RInitial)).
      { clear I. induction Hh as [|h w e w' Hh [IH1 IH2] S]; [split; [reflexivity|intros []]|].
        pose proof (step_static heqb dig lim h w e w' (inv_history _ _ _ _ _ _ _ Hh) S) as (A & B & C). split.
        - intros T. destruct (B T) as [T' ->]. auto.
        - intros [I|I]; [|destruct (IH2 I) as [Es T]; destruct (A T) as [-> T']; auto].
          injection I as -> ->. destruct (C RInitial (MError 1) eq_refl) as (T & T' & St). split; auto. rewrite St by reflexivity. now apply IH1. }
      now apply J. }
    destruct X as [X _]. exists (push_logs 1 c). cbn [act update update_model]. unfold start_fetch_project. now rewrite X.
  Qed.
End Histories.
Print Assumptions C53_one_request.
Print Assumptions C53_kept.
Print Assumptions C53_opened.
Print Assumptions C53_saved.
Print Assumptions C53_error.
Print Assumptions C53_busy.
Print Assumptions C53_stuck.

Lemma user_eq {H} heqb dig lim (c : client H) q u c' sent q' : act heqb dig lim u c = Ok (c', sent) -> q' = q ++ sent -> wstep heqb dig lim (c, q) (EUser u) (c', q').
Proof. intros E ->. now constructor. Qed.
Lemma answer_eq {H} heqb dig lim (c : client H) q q' r m c' sent q1 q2 : answers r m -> update heqb dig lim m c = Ok (c', sent) -> q1 = q ++ r :: q' -> q2 = q ++ q' ++ sent ->
  wstep heqb dig lim (c, q1) (EAnswer r m) (c', q2).
Proof. intros A E -> ->. now constructor. Qed.

(** What is typed while a save is on its way is lost when the save succeeds: the request carries the
    text "a", the edit has the text "ab", and after the answer there is no edit left. *)
Theorem C53_lost : exists h (c : client N) c' j op p' ed,
  history N.eqb is_digit 4294967296 [] VGraph h (c, [RModify j [op]]) /\
  op = SCreate (mkSim (mkName REQ (s "REQ-X") (s "req-x")) (s "x.toml") [] None (s "a")) /\
  im_get N.eqb 1%N (c_edits c) = Some ed /\ e_text ed = s "ab" /\
  wstep N.eqb is_digit 4294967296 (c, [RModify j [op]]) (EAnswer (RModify j [op]) (MProject j p')) (c', []) /\
  c_edits c' = [].
Proof.
  eexists _, _, _, _, _, [], _. split.
  { eapply h_step; [eapply h_step; [eapply h_step; [eapply h_step; [eapply h_step; [eapply h_step; [eapply h_step; [eapply h_step; [apply h_start|]|]|]|]|]|]|]|].
    - eapply (answer_eq _ _ _ _ [] [] RInitial (MInitial false None)); [exact I|vm_compute; reflexivity|reflexivity|reflexivity].
    - eapply (answer_eq _ _ _ _ [] [] (RRead 0 false) (MProject 0 [])); [exact eq_refl|vm_compute; reflexivity|reflexivity|reflexivity].
    - eapply (user_eq _ _ _ _ _ UCreate); [vm_compute; reflexivity|reflexivity].
    - eapply (user_eq _ _ _ _ _ (UType 1 (FName (s "req-x")))); [vm_compute; reflexivity|reflexivity].
    - eapply (user_eq _ _ _ _ _ (UType 1 (FFile (s "x.toml")))); [vm_compute; reflexivity|reflexivity].
    - eapply (user_eq _ _ _ _ _ (UType 1 (FText (s "a")))); [vm_compute; reflexivity|reflexivity].
    - eapply (user_eq _ _ _ _ _ (USave 1)); [vm_compute; reflexivity|reflexivity].
    - eapply (user_eq _ _ _ _ _ (UType 1 (FText (s "ab")))); [vm_compute; reflexivity|reflexivity]. }
  split; [vm_compute; reflexivity|]. split; [vm_compute; reflexivity|]. split; [reflexivity|]. split.
  - eapply (answer_eq _ _ _ _ [] [] _ (MProject 2 [])); [exact eq_refl|vm_compute; reflexivity|reflexivity|reflexivity].
  - reflexivity.
Qed.
Print Assumptions C53_lost.

(** An artifact is opened for editing and its text changed; the save fails, the form stays, and
    pressing Save again sends the same operation. And a page whose first request failed. *)
Definition w_req : name := mkName REQ (s "REQ-A") (s "REQ-a").
Definition w_shown : list (name * sart N) := [(w_req, mkSart 7%N w_req (s "a.md") [] None (s "old"))].
Example C53_example :
  (exists h (c : client N) c1 c2 c3 j j' op ed,
    history N.eqb is_digit 4294967296 [] (VArtifact w_req) h (c, [RModify j [op]]) /\
    op = SUpdate (mkSim w_req (s "a.md") [] None (s "new")) 7%N /\
    wstep N.eqb is_digit 4294967296 (c, [RModify j [op]]) (EUser USync) (c1, [RModify j [op]]) /\
    im_get N.eqb 1%N (c_edits c1) = Some ed /\ e_text ed = s "new" /\ form_of (mkSart 7%N w_req (s "a.md") [] None (s "new")) ed /\
    wstep N.eqb is_digit 4294967296 (c1, [RModify j [op]]) (EAnswer (RModify j [op]) (MError 1)) (c2, []) /\
    im_get N.eqb 1%N (c_edits c2) = Some ed /\
    wstep N.eqb is_digit 4294967296 (c2, []) (EUser (USave 1)) (c3, [RModify j' [op]])) /\
  (exists h (c : client N) w0, history N.eqb is_digit 4294967296 w_shown VGraph h (c, []) /\ In (EAnswer RInitial (MError 1), w0) h /\ c_project c = w_shown).
Proof.
  split.
  - eexists _, _, _, _, _, _, _, _, _. split.
    { eapply h_step; [eapply h_step; [eapply h_step; [eapply h_step; [eapply h_step; [apply h_start|]|]|]|]|].
      - eapply (answer_eq _ _ _ _ [] [] RInitial (MInitial false None)); [exact I|vm_compute; reflexivity|reflexivity|reflexivity].
      - eapply (answer_eq _ _ _ _ [] [] (RRead 0 false) (MProject 0 w_shown)); [exact eq_refl|vm_compute; reflexivity|reflexivity|reflexivity].
      - eapply (user_eq _ _ _ _ _ UEdit); [vm_compute; reflexivity|reflexivity].
      - eapply (user_eq _ _ _ _ _ (UType 1 (FText (s "new")))); [vm_compute; reflexivity|reflexivity].
      - eapply (user_eq _ _ _ _ _ (USave 1)); [vm_compute; reflexivity|reflexivity]. }
    split; [vm_compute; reflexivity|]. split; [eapply user_eq; [vm_compute; reflexivity|reflexivity]|].
    split; [vm_compute; reflexivity|]. split; [reflexivity|]. split; [vm_compute; repeat split; intros; congruence|].
    split; [eapply (answer_eq _ _ _ _ [] [] _ (MError 1)); [exact eq_refl|vm_compute; reflexivity|reflexivity|reflexivity]|].
    split; [vm_compute; reflexivity|]. eapply user_eq; [vm_compute; reflexivity|reflexivity].
  - eexists _, _, _. split.
    { eapply h_step; [apply h_start|]. eapply (answer_eq _ _ _ _ [] [] RInitial (MError 1)); [exact eq_refl|vm_compute; reflexivity|reflexivity|reflexivity]. }
    split; [left; reflexivity|reflexivity].
Qed.

(** ** C65 *)
Section Panics.
  Context {H : Type} (heqb : H -> H -> bool) (dig : char -> bool) (lim : N).
  Local Notation get := (im_get N.eqb).

  (** The names the server sends are names (they are parsed). *)
  Definition names_ok (p : sproject H) : Prop := Forall (fun x => name_from_str (n_raw (sa_name (snd x))) = Ok (sa_name (snd x))) p.

  (** The buttons and fields the page of [c] has. *)
  Definition offered (u : action) (c : client H) : Prop :=
    match u with
    | UEdit => exists n a, c_view c = VArtifact n /\ im_get name_eqb n (c_project c) = Some a
    | USave id | UCancel id => c_view c = VEdit id /\ exists e, get id (c_edits c) = Some e
    | UType id f => c_view c = VEdit id /\ exists e, get id (c_edits c) = Some e /\
        match f with FPartSet i _ | FPartDel i => i < length (e_partof e) | _ => True end
    | _ => True
    end.

  (** The artifact that the edit [e] was opened from is not in [p]. *)
  Definition original_gone (p : sproject H) (e : edit H) : Prop :=
    forall i x, e_orig e = Some i -> In x p -> heqb (sa_id (snd x)) i = false.

  Lemma expect_name_iff x : (exists n, expect_name x = Ok n) /\ valid_name x \/ expect_name x = Panic /\ ~ valid_name x.
  Proof.
    unfold expect_name. destruct (name_from_str x) as [n| |] eqn:E; [left; split; [eauto|apply name_accept; eauto]|right|right]; (split; [auto|]); intros V; apply name_accept in V as [n V]; congruence.
  Qed.
  Lemma expect_all l : (exists ns, res_map expect_name l = Ok ns) /\ Forall valid_name l \/ res_map expect_name l = Panic /\ Exists (fun x => ~ valid_name x) l.
  Proof.
    induction l as [|x l IH]; [left; split; [exists []; reflexivity|constructor]|]. cbn [res_map].
    destruct (expect_name_iff x) as [[[n E] V]|[E V]]; rewrite E; cbn [res_bind].
    - destruct IH as [[[ns E'] V']|[E' V']]; rewrite E'; cbn [res_bind]; [left; split; [eauto|auto]|right; auto].
    - right. auto.
  Qed.

  Lemma edit_op_iff (e : edit H) : (exists op, edit_op e = Ok op) /\ valid_name (e_name e) /\ Forall valid_name (e_partof e) \/
    edit_op e = Panic /\ (~ valid_name (e_name e) \/ Exists (fun x => ~ valid_name x) (e_partof e)).
  Proof.
    unfold edit_op, edit_im. destruct (expect_all (e_partof e)) as [[[ns E] V]|[E V]]; rewrite E; cbn [res_bind]; [|right; auto].
    destruct (expect_name_iff (e_name e)) as [[[n E'] V']|[E' V']]; rewrite E'; cbn [res_bind]; [left; eauto|right; auto].
  Qed.

  Lemma route_panic p (e : edit H) : names_ok p ->
    (exists r v, route_after heqb p e = Ok r /\ from_hash dig lim r = Ok v) /\ ~ (original_gone p e /\ longs_name (e_name e)) \/
    route_after heqb p e = Panic /\ original_gone p e /\ longs_name (e_name e).
  Proof.
    intros W. unfold route_after.
    assert (N : forall n, name_from_str (n_raw n) = Ok n -> from_hash dig lim (n_raw n) = Ok (VArtifact n)) by (intros n Hn; now apply C55_names).
    set (f := match e_orig e with Some i => find (fun x : name * sart H => heqb (sa_id (snd x)) i) p | None => None end).
    assert (F : match f with Some x => In x p /\ ~ original_gone p e | None => original_gone p e end).
    { unfold f, original_gone. destruct (e_orig e) as [i|] eqn:Eo; [|intros i x; discriminate]. destruct (find _ p) as [x|] eqn:Ef.
      - apply find_some in Ef as [I E]. split; auto. intros G. specialize (G i x eq_refl I). congruence.
      - intros i' x [= <-] I. now apply (find_none _ _ Ef x). }
    destruct f as [x|].
    - left. destruct F as [I G]. split; [|tauto]. unfold names_ok in W. rewrite Forall_forall in W. exists (n_raw (sa_name (snd x))), (VArtifact (sa_name (snd x))). split; [reflexivity|]. apply N, (W x I).
    - destruct (name_from_str (e_name e)) as [n| |] eqn:E.
      + left. split. 2:{ intros [_ L]. apply name_panic in L. congruence. } destruct (im_mem name_eqb n p); [|exists (s "graph"), VGraph; split; reflexivity].
        apply from_str_wf in E as [E1 E2]. exists (e_name e), (VArtifact n). split; auto. rewrite <- E2. now apply N.
      + left. split. 2:{ intros [_ L]. apply name_panic in L. congruence. } exists (s "graph"), VGraph. split; reflexivity.
      + right. split; auto. split; auto. now apply name_panic.
  Qed.

  Lemma list_set_ok {A} i (x : A) l : i < length l -> exists m, list_set i x l = Some m.
  Proof. revert l. induction i as [|i IH]; intros [|y l] L; cbn in *; try lia; [eauto|]. destruct (IH l) as [m ->]; [lia|eauto]. Qed.
  Lemma list_del_ok {A} i (l : list A) : i < length l -> exists m, list_del i l = Some m.
  Proof. revert l. induction i as [|i IH]; intros [|y l] L; cbn in *; try lia; [eauto|]. destruct (IH l) as [m ->]; [lia|eauto]. Qed.

  (** Which buttons make the client panic; the others give a new state. *)
  Definition breaks (u : action) (c : client H) : Prop :=
    match u with
    | USave id => c_task c = None /\ exists e, get id (c_edits c) = Some e /\ (~ valid_name (e_name e) \/ Exists (fun x => ~ valid_name x) (e_partof e))
    | UCancel id => exists e, get id (c_edits c) = Some e /\ original_gone (c_project c) e /\ longs_name (e_name e)
    | UHash h => ~ is_graph h /\ exists x, first_name h x /\ longs_name x
    | _ => False
    end.
  Theorem C65_exact : forall c u, names_ok (c_project c) -> offered u c ->
    match act heqb dig lim u c with Ok _ => ~ breaks u c | Err => False | Panic => breaks u c end.
  Proof.
    intros c u W O. destruct u as [| |id|id|id f| |x|ids|]; cbn [act offered breaks] in *.
    - unfold open_edit. destruct (hash_edit_quiet dig lim (c_next c)) as [v ->]. cbn. auto.
    - unfold open_edit. destruct (hash_edit_quiet dig lim (c_next c)) as [v ->]. destruct O as (n & a & Ev & Ea).
      cbn [res_bind update update_batch update_model handle_start take_next c_view c_project]. rewrite Ev, Ea. cbn. auto.
    - destruct O as (Ev & e & Ge). cbn [update update_model]. unfold start_send_update. destruct (c_task c); [intros [X _]; discriminate|].
      cbn [res_map]. rewrite Ge. destruct (edit_op_iff e) as [[[op ->] [V Vs]]|[-> V]]; cbn [res_bind].
      + intros (_ & e' & [= <-] & [N|N]); [contradiction|]. apply Exists_exists in N as (x & Hx & N). rewrite Forall_forall in Vs. auto.
      + eauto.
    - destruct O as (Ev & e & Ge). cbn [update update_model]. unfold quiet, complete_editing. rewrite Ge, Ev. cbn [at_edit]. rewrite N.eqb_refl.
      destruct (route_panic (c_project c) e W) as [[(r & v & -> & E) N]|(-> & N)]; cbn [res_bind]; [rewrite E; cbn [res_bind]|eauto].
      intros (e' & [= <-] & X). tauto.
    - destruct O as (Ev & e & Ge & Of). cbn [update update_model]. unfold quiet, handle_edit. rewrite Ge.
      assert (exists e', set_field e f = Ok e') as [e' ->]; [|cbn; auto]. destruct f; cbn [set_field set_partof]; eauto.
      + destruct (list_set_ok i x (e_partof e) Of) as [m ->]. cbn. eauto.
      + destruct (list_del_ok i (e_partof e) Of) as [m ->]. cbn. eauto.
    - cbn. auto.
    - pose proof (C55_exact dig lim x) as E. cbv zeta in E. destruct (from_hash dig lim x) as [v| |]; cbn [res_bind update update_model]; auto.
      intros (NG & y & F & L). destruct v as [|n|i|].
      + contradiction.
      + destruct E as (_ & z & F' & E). rewrite (first_name_unique _ _ _ F' F) in E. apply name_panic in L. congruence.
      + destruct E as (_ & N & _). destruct F as (a & b & E & Ly & _). now apply (N a y b).
      + destruct E as (_ & N & _). destruct F as (a & b & E & Ly & _). now apply (N a y b).
    - cbn. auto.
    - cbn. auto.
  Qed.

  (** In particular: a new artifact whose name was not typed yet. *)
  Theorem C65_new : forall c, c_task c = None -> (c_next c < lim)%N -> (forall x, (48 <= x <= 57)%N -> dig x = true) ->
    exists c', act heqb dig lim UCreate c = Ok (c', []) /\ offered (USave (c_next c)) c' /\ act heqb dig lim (USave (c_next c)) c' = Panic.
  Proof.
    intros c T L D. cbn [act]. unfold open_edit. rewrite C55_edits by auto. cbn [res_bind update update_batch update_model handle_start quiet fst snd app].
    eexists. split; [reflexivity|]. pose proof (get_insert_same N.eqb (fun x => x) N.eqb_eq (c_edits c) (c_next c) (@new_edit H)) as G. split.
    - split; [reflexivity|]. exists new_edit. exact G.
    - unfold start_send_update. cbn [set_view set_edits take_next c_task c_edits]. rewrite T. cbn [res_map]. rewrite G. reflexivity.
  Qed.

  (** Answers: the client panics exactly when the answer to a save comes while the edit is shown,
      the artifact is not in the new project, and the name now typed is spelt with a long s. *)
  Theorem C65_answers : forall p v h c q r q' m, history heqb dig lim p v h (c, q ++ r :: q') -> answers r m ->
    (forall j p', m = MProject j p' -> names_ok p') ->
    match update heqb dig lim m c with
    | Ok _ => True
    | Err => False
    | Panic => exists id j ops p' e, r = RModify j ops /\ m = MProject j p' /\ c_view c = VEdit id /\
        get id (c_edits c) = Some e /\ original_gone p' e /\ longs_name (e_name e)
    end.
  Proof.
    intros p v h c q r q' m Hh A W. apply inv_history in Hh. destruct (answered _ _ _ _ _ Hh) as (-> & -> & T).
    pose proof (wi_task _ _ Hh) as Tk. cbn [fst] in Tk. rewrite T in Tk.
    destruct r as [|j b|j ops], m; cbn [answers] in A; try contradiction; subst; cbn [update update_model]; auto.
    - unfold quiet, handle_recv_project. cbn [set_task set_project c_updating]. destruct Tk as [_ ->]. cbn. auto.
    - destruct Tk as (i & c0 & e0 & op & Ih & <- & G0 & Eo & -> & Gu). unfold quiet, handle_recv_project. cbn [set_task set_project c_updating]. rewrite Gu.
      cbn [complete_all]. unfold complete_editing. cbn [set_task set_project c_edits c_view c_project]. destruct (get i (c_edits c)) as [e|] eqn:G; [|cbn; auto].
      destruct (c_view c) as [|n|i'|] eqn:Ev; cbn [at_edit]; try (cbn; auto; fail). destruct (N.eqb_spec i' i) as [->|]; [|cbn; auto].
      destruct (route_panic p0 e (W _ _ eq_refl)) as [[(r & v' & -> & E) N]|(-> & N)]; cbn [res_bind]; [rewrite E; cbn; auto|].
      exists i, (c_next c0), [op], p0, e. tauto.
  Qed.
End Panics.
Print Assumptions C65_exact.
Print Assumptions C65_new.
Print Assumptions C65_answers.

Example C65_example :
  let c := mkClient false [] (VEdit 3) None [] [(3%N, mkEdit (Some 7%N) (s "req-x") [] [s "REQ"; []] [] [])] [] 9%N in
  names_ok (c_project c) /\ offered (USave 3) c /\ breaks N.eqb (USave 3) c /\ act N.eqb is_digit 4294967296 (USave 3) c = Panic /\
  act N.eqb is_digit 4294967296 (UCancel 3) c = Ok (mkClient false [] VGraph None [] [] [] 9%N, []).
Proof.
  cbv zeta. split; [constructor|]. split; [split; [reflexivity|eexists; reflexivity]|]. split; [|split; vm_compute; reflexivity].
  split; [reflexivity|]. eexists. split; [reflexivity|]. right. cbn [e_partof]. apply Exists_cons_tl, Exists_cons_hd. intros V. apply name_accept in V as [n V]. discriminate.
Qed.
