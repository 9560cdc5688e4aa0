(** Property C87: artifact files in JSON. *)
From Coq Require Import Permutation Sorted Relation_Operators Lia.
From Verif Require Import Base BaseFacts Regex Name NameFacts Expand RawNames RawNamesFacts Artifact SpecGraph SpecLinks LinkFacts Topo Numbers Stored Markdown SpecMarkdown MarkdownFacts YamlExample Lint SpecLint LintFacts LintThms Source SpecJoin JoinFacts
  Pool PoolFacts Load SpecLoad LoadFacts DeterFacts ReadThms Disk DiskFacts Walk SpecWalk WalkFacts Modify SpecModify SpecReload OpFacts PureFacts PhaseFacts RunFacts ReloadFacts ResultFacts DiskRunFacts
  CodecExample PropArtifacts PropCompleted PropMarkdown PropLint PropLoad PropModify PropDisk Json SpecJson JsonFacts JsonArt SpecJsonArt JsonArtFacts JsonPanicFacts.
Open Scope nat_scope.

(** A text is accepted when it is a JSON document that says something about artifacts, as what it says. *)
Theorem C87_read : forall x l, json_parse x = Ok l <-> says x l.
Proof. exact parse_iff. Qed.
Print Assumptions C87_read.
(** What a file does to the load: the artifacts it says, without a complaint; or nothing, and one
    error naming the file, or a panic, which needs a name spelled with a long s in quotes. *)
Theorem C87_load : forall path_str yaml parse_toml parse_msg prefix f x,
  art_type_of (af_path f) = Some TJson -> af_text f = inl x ->
  let j := load_file path_str yaml parse_toml json_parse parse_msg prefix f in
  (exists l, says x l /\ j = mkJob (map (fun e => from_raw (fst e) (af_path f) (snd e)) l) [] false) \/
  ((forall l, ~ says x l) /\ jb_out j = [] /\
   (jb_panic j = false /\ (exists m, jb_lints j = [m] /\ li_level m = LError /\ li_path m = Some (path_str (af_path f))) \/
    jb_panic j = true /\ exists z, quoted x z /\ longs_list z)).
Proof.
  intros ps y pt pm px f x T X j. subst j. unfold load_file. rewrite T, X. cbn [parse_artifacts]. destruct (json_parse x) as [l| |] eqn:E.
  - left. exists l. split; auto. now apply C87_read.
  - right. split; [intros l S; apply C87_read in S; congruence|]. split; [reflexivity|]. left. split; [reflexivity|]. eexists. split; [reflexivity|]. split; reflexivity.
  - right. split; [intros l S; apply C87_read in S; congruence|]. split; [reflexivity|]. right. split; [reflexivity|]. now apply parse_panic.
Qed.
Print Assumptions C87_load.
(** A name that comes twice in one file is no error: what is said last replaces what was said
    before. *)
Definition last_said (es : list (name * art_raw)) (n : name) (r : art_raw) : Prop :=
  exists e1 e2, es = e1 ++ (n, r) :: e2 /\ forall n' r', In (n', r') e2 -> nk n' <> nk n.
Lemma get_first l : forall k (v : art_raw), im_get name_eqb k l = Some v <-> exists l1 k' l2, l = l1 ++ (k', v) :: l2 /\ nk k' = nk k /\ forall a b, In (a, b) l1 -> nk a <> nk k.
Proof.
  induction l as [|[a b] l IH]; intros k v; cbn [im_get]; [split; [discriminate|intros (l1 & k' & l2 & E & _); destruct l1; discriminate E]|].
  destruct (name_eqb a k) eqn:E.
  - apply name_eqb_iff in E. split; [intros X; injection X as <-; exists [], a, l; split; [reflexivity|]; split; [exact E|intros ? ? []]|].
    intros (l1 & k' & l2 & X & N & Q). destruct l1 as [|[c d] l1]; [injection X as _ -> _; reflexivity|]. injection X as <- <- _. exfalso. eapply Q; [now left|exact E].
  - assert (E' : nk a <> nk k) by (intros Y; apply name_eqb_iff in Y; congruence). rewrite IH. split.
    + intros (l1 & k' & l2 & -> & N & Q). exists ((a, b) :: l1), k', l2. split; [reflexivity|]. split; auto. intros a' b' [X|X]; [injection X as <- <-; exact E'|eauto].
    + intros (l1 & k' & l2 & X & N & Q). destruct l1 as [|[c d] l1]; [injection X as -> _ _; congruence|]. injection X as <- <- ->. exists l1, k', l2. split; [reflexivity|]. split; auto. intros a' b' I. eapply Q. right. exact I.
Qed.
Lemma get_last es k v : im_get name_eqb k (im_collect name_eqb es) = Some v <-> exists n, nk n = nk k /\ last_said es n v.
Proof.
  unfold im_collect. rewrite (get_extend name_eqb nk name_eqb_iff). cbn [im_get]. assert (X : im_get name_eqb k (rev es) = Some v <-> exists n, nk n = nk k /\ last_said es n v); [|destruct (im_get name_eqb k (rev es)); auto].
  rewrite get_first. split.
  - intros (l1 & n & l2 & E & N & Q). exists n. split; auto. exists (rev l2), (rev l1). split.
    + apply (f_equal (@rev _)) in E. rewrite rev_involutive, rev_app_distr in E. rewrite E. cbn [rev]. now rewrite <- app_assoc.
    + intros a b I. rewrite N. apply (Q a b). now apply in_rev.
  - intros (n & N & e1 & e2 & -> & Q). exists (rev e2), n, (rev e1). split; [rewrite rev_app_distr; cbn [rev]; now rewrite <- app_assoc|]. split; auto. intros a b I. apply in_rev in I. rewrite <- N. now apply (Q a b).
Qed.
Lemma in_get l : NoDup (map (fun e => nk (fst e)) l) -> forall n (r : art_raw), In (n, r) l -> im_get name_eqb n l = Some r.
Proof.
  induction l as [|[a b] l IH]; intros ND n r; cbn [im_get]; [intros []|]. inversion ND as [|? ? Na Nl]; subst. intros [E|I]; [injection E as -> ->; now rewrite (proj2 (name_eqb_iff n n) eq_refl)|].
  destruct (name_eqb a n) eqn:E; [|auto]. apply name_eqb_iff in E. exfalso. apply Na. cbn [fst]. rewrite E. exact (in_map (fun e => nk (fst e)) l (n, r) I).
Qed.
Theorem C87_repeated : forall path_str yaml parse_toml parse_msg prefix f x fs es,
  art_type_of (af_path f) = Some TJson -> af_text f = inl x ->
  jdoc x (JObj fs true) -> Forall2 (fun f e => name_from_str (fst f) = Ok (fst e) /\ says_art (snd f) (snd e)) fs es ->
  let j := load_file path_str yaml parse_toml json_parse parse_msg prefix f in
  jb_lints j = [] /\ jb_panic j = false /\ NoDup (map (fun a => nk (im_name a)) (jb_out j)) /\
  (forall a, In a (jb_out j) -> exists m n r, nk m = nk n /\ last_said es n r /\ a = from_raw m (af_path f) r) /\
  (forall n r, last_said es n r -> exists m, nk m = nk n /\ In (from_raw m (af_path f) r) (jb_out j)).
Proof.
  intros ps y pt pm px f x fs es T X D F j.
  assert (S : says x (im_collect name_eqb es)) by (exists fs, es; auto).
  assert (J : j = mkJob (map (fun e => from_raw (fst e) (af_path f) (snd e)) (im_collect name_eqb es)) [] false).
  { subst j. unfold load_file. rewrite T, X. cbn [parse_artifacts]. apply C87_read in S. now rewrite S. }
  rewrite J. cbn [jb_out jb_lints jb_panic]. assert (ND : NoDup (map (fun e => nk (fst e)) (im_collect name_eqb es))) by apply (nodup_collect name_eqb nk name_eqb_iff).
  split; [reflexivity|]. split; [reflexivity|]. split; [rewrite map_map; exact ND|]. split.
  - intros a I. apply in_map_iff in I as ([m r] & <- & I). apply in_get in I; auto. apply get_last in I as (n & N & L). exists m, n, r. auto.
  - intros n r L. assert (G : im_get name_eqb n (im_collect name_eqb es) = Some r) by (apply get_last; exists n; auto). apply get_first in G as (l1 & m & l2 & E & N & _). exists m. split; auto. apply in_map_iff. exists (m, r). split; [reflexivity|]. rewrite E. apply in_or_app. right. now left.
Qed.
Print Assumptions C87_repeated.
(** What is saved is a JSON document, with the names in their order, and is read back as the same
    artifacts, whatever their texts are. *)
Theorem C87_saved : forall arts file, Forall im_wf arts -> distinct arts -> (forall a, In a arts -> im_clean a = a /\ im_file a = file) ->
  let x := json_store (map raw_entry arts) in
  (exists fs, jdoc x (JObj fs true) /\ map fst fs = map (fun a => n_raw (im_name a)) arts) /\
  exists l, says x l /\ map (fun e => from_raw (fst e) file (snd e)) l = arts.
Proof.
  intros arts file W D Ha x. subst x. split.
  - exists (map ser_val (map raw_entry arts)). split; [|now rewrite !map_map]. apply store_doc. apply Forall_map, Forall_forall. intros a Hin. rewrite Forall_forall in W. apply raw_form; auto. now apply Ha.
  - destruct (json_codec_ok arts file W D Ha) as (l & E & El). exists l. split; auto. now apply C87_read.
Qed.
Print Assumptions C87_saved.
(** A project kept in JSON files is read back after any successful request, with no condition on
    its texts. *)
Theorem C87_reload : forall path_str M topo H heqb (hash_im : art_im -> H) debug_im st to_toml yaml_done style E1 E3
    yaml parse_toml parse_msg prefix settings_path url_error E0 n lines_of t c p ops t' c1 p1 E,
  topo_ok topo -> (forall a b, heqb a b = true <-> a = b) -> parser_ok parse_toml ->
  yaml_ok yaml yaml_done -> codec_ok to_toml parse_toml ->
  safe_disk st t -> roots_apart (se_arts st) ->
  loads path_str yaml parse_toml json_parse parse_msg prefix M topo H hash_im settings_path url_error n (art_files E0 t path_str st) (code_files E0 t lines_of path_str st) (Ok (inl (c, p))) ->
  Forall op_wf ops -> (forall o a, In o ops -> stores o a -> plain_path (im_file a) /\ forall e, In e (se_xarts st) -> ~ below (im_file a) e) ->
  runs path_str M topo H heqb hash_im debug_im st to_toml json_store yaml_done style E1 E3 t (Ok (inl (c, p))) ops (MDone M H t' (Ok (inl (c1, p1)))) ->
  (forall a, In a (stored_form p1) -> art_type_of (im_file a) = Some TJson) ->
  (forall q, e_stat E q = None) -> (forall q, e_open E q = None) -> (forall q, e_read E q = None) ->
  (exists fs, art_files E t' path_str st = map inl fs /\
     Forall (fun f => jb_lints (load_file path_str yaml parse_toml json_parse parse_msg prefix f) = [] /\ jb_panic (load_file path_str yaml parse_toml json_parse parse_msg prefix f) = false) fs) /\
  forall n' lines_of' c2 p2, 0 < n' ->
    loads path_str yaml parse_toml json_parse parse_msg prefix M topo H hash_im settings_path url_error n' (art_files E t' path_str st) (code_files E t' lines_of' path_str st) (Ok (inl (c2, p2))) ->
    Permutation (stored_form p2) (stored_form p1).
Proof.
  intros ps M topo H heqb h db st tt yd sy E1 E3 y pt pm px sp u E0 n lo t c p ops t' c1 p1 E TC HE PO Hy Ct Sd Ra Ld W Wp Rn Js Es Eo Er.
  refine (C40_reload ps M topo H heqb h db st tt json_store yd sy E1 E3 y pt json_parse pm px sp u E0 n lo t c p ops t' c1 p1 E TC HE PO json_parser_ok Hy Ct json_codec_ok Sd Ra Ld W Wp Rn _ Es Eo Er).
  intros f Tf (a & Ia & <-). rewrite (Js a Ia) in Tf. discriminate Tf.
Qed.
Print Assumptions C87_reload.

(** A project in one JSON file: escapes, a collapsed list, an unknown field, a text that would not
    survive in a markdown file. *)
Definition k_text : str :=
  s "{""REQ-a"": {""text"": ""a\n```art\n\u00e9\uD83D\ude00\ttab  "", ""note"": [1, -2.5e3, {}]}," ++ [10%N] ++
  s " ""SPC-b"":[null, ""REQ-[a, b]"", null ] ,""spc-c"": {""partof"":[""REQ-a"",""SPC-b""],""done"":""by \""hand\""""}}  ".
Definition k_st := mkSettings [[s "p"; s "d"]] [] [] [].
Definition k_tree x := m_dir [(s "a.json", NFile x)].
Definition k_load t : res (lints * project exact_num str + lints) :=
  seq_load ex_path ex_yaml ex_parse json_parse (fun _ _ => s "bad") [] exact_num topo_sort str mid [s "settings.toml"] None 2 (art_files no_errs t ex_path k_st) [].
Definition k_mod t ops := seq_modify ex_path exact_num topo_sort str str_eqb mid (fun _ => s "art") k_st ex_store json_store ex_yaml_done Hashes no_errs no_errs t (k_load t) ops.
Definition k_im n ps d t : art_im := mkIm (nm n) [s "p"; s "d"; s "a.json"] (map nm ps) d t.
Definition k_req := k_im (s "REQ-a") [] None (s "a" ++ [10%N] ++ s "```art" ++ [10; 233; 128512; 9]%N ++ s "tab" ++ [10%N]).
Definition k_b := k_im (s "SPC-b") [s "REQ-a"] None [].
Definition k_c := k_im (s "spc-c") [s "REQ-a"; s "SPC-b"] (Some (s "by ""hand""")) [].
Definition k_new := k_im (s "SPC-new") [s "SPC-b"] None (s "```art" ++ [10%N] ++ s "### \ "" /" ++ [10%N]).
Example C87_example :
  says k_text (match json_parse k_text with Ok l => l | _ => [] end) /\ length (match json_parse k_text with Ok l => l | _ => [] end) = 3 /\
  stored_of (k_load (k_tree k_text)) = [k_req; k_b; k_c] /\
  m_out (k_mod (k_tree k_text) [OCreate k_new]) = (None, [k_req; k_b; k_c; k_new]) /\
  stored_of (k_load (fst (k_mod (k_tree k_text) [OCreate k_new]))) = [k_req; k_b; k_c; k_new] /\
  file_at (fst (k_mod (k_tree k_text) [OCreate k_new])) (in_file (s "a.json")) =
    Some (s "{""REQ-a"":{""done"":null,""partof"":null,""text"":""a\n```art\n" ++ [233; 128512]%N ++ s "\ttab\n""},""SPC-b"":{""done"":null,""partof"":""REQ-a"",""text"":null}," ++
          s """spc-c"":{""done"":""by \""hand\"""",""partof"":[""REQ-a"",""SPC-b""],""text"":null},""SPC-new"":{""done"":null,""partof"":""SPC-b"",""text"":""```art\n### \\ \"" /\n""}}").
Proof. split; [apply C87_read|]; vm_compute; auto 10. Qed.
(** Not JSON, or nothing about artifacts: a comma too many, a control character in a text, a field
    twice, a number for a text, a document cut short, something after the document. *)
Example C87_refused : Forall (fun x => json_parse x = Err)
  [s "{""REQ-a"":{},}"; s "{""REQ-a"":{""text"":""a" ++ [10%N] ++ s "b""}}"; s "{""REQ-a"":{""text"":null,""text"":null}}"; s "{""REQ-a"":{""done"":1}}"; s "{""REQ-a"":{""done"":""x"; s "{} {}"; s "{""a"":{}}"; []].
Proof. repeat constructor. Qed.
(** One file says REQ-a twice: the first text is gone and the project has no lint; the next save
    makes it final. *)
Definition k_twice : str := s "{""REQ-a"":{""text"":""kept for years""},""SPC-b"":{},""req-A"":{""text"":""oops""}}".
Example C87_lost : stored_of (k_load (k_tree k_twice)) = [k_im (s "REQ-a") [] None (s "oops"); k_im (s "SPC-b") [] None []] /\
  match k_load (k_tree k_twice) with Ok (inl (c, _)) => ls_error c = [] /\ ls_other c = [] | _ => False end /\
  file_at (fst (k_mod (k_tree k_twice) [])) (in_file (s "a.json")) = Some (s "{""REQ-a"":{""done"":null,""partof"":null,""text"":""oops""},""SPC-b"":{""done"":null,""partof"":null,""text"":null}}").
Proof. vm_compute. auto. Qed.
