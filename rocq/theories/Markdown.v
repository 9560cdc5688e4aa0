(** artifact-data/src/raw.rs: reading and writing artifacts as markdown.

    The YAML library is a parameter: [yaml] is [serde_yaml::from_str::<AttrsRaw>] without the
    interpretation of the partof value (raw_names.rs, modelled in RawNames.v), [yaml_done] is
    [to_yaml] of the map with the one key "done". *)
From Verif Require Import Base Regex Name Expand RawNames Artifact Stored.

(** [BufRead::lines]: a line ends with "\n" or "\r\n"; the last line may be unterminated (and
    then keeps a trailing "\r"). *)
Definition strip_cr (x : str) : str :=
  match rev x with c :: r => if N.eqb c c_cr then rev r else x | [] => x end.
Fixpoint term_lines (strip_last : bool) (ps : list str) : list str :=
  match ps with
  | [] => []
  | [p] => match p with [] => [] | _ => [if strip_last then strip_cr p else p] end
  | p :: ps' => strip_cr p :: term_lines strip_last ps'
  end.
Definition buf_lines (x : str) : list str := term_lines false (split_on c_nl x).
(** [str::lines] (of the Rust of that time): the same, and strips a "\r" of the last line. *)
Definition str_lines (x : str) : list str := term_lines true (split_on c_nl x).

(** artifact-ser/src/lib.rs:148-168, [SettingsMdName::to_prefix_string]: the prefix, "" by default. *)
(** raw.rs:152-157, [get_re]: group 0 is the name.  Only ASCII letters (and the two characters
    that fold to one) of the prefix are compared without case. *)
Definition md_name_line_re (prefix : str) : re :=
  seqs [cis prefix; lit c_hash; Star true ws; Cap 0 re_name; Star true ws].
(** raw.rs:209 *)
Definition attrs_end_re : re := seqs [lit c_hash; lit c_hash; plus (lit c_hash); Star true ws].
(** raw.rs:210 *)
Definition attrs_code_re : re :=
  seqs [lits (s "```"); Alt (Star true ws) (Seq (Star false dot) (plus ws)); lits (s "ar"); plus (lit 116%N); Star true ws].
(** raw.rs:211 *)
Definition code_end_re : re := seqs [lits (s "``"); plus (lit c_tick); Star true ws].

(** artifact-ser/src/lib.rs:199-223, [SettingsMdAttrs] *)
Inductive md_attrs := Hashes | CodeBlock (prefix : option str).

Record md := mkMd { md_out : list (name * art_raw); md_name : option name; md_at : option str; md_other : list str }.

Section Md.
  Variable yaml : str -> option (option str * option names_val).
  Variable yaml_done : str -> str.
  Variable prefix : str.

  Definition header (l : str) : option str :=
    match match_full (md_name_line_re prefix) l with Some cs => cap_get 0 cs | None => None end.

  (** raw.rs:301-338 *)
  Definition insert_from_parts (out : list (name * art_raw)) (n : name) (attrs : option str) (other : list str)
    : res (list (name * art_raw)) :=
    res_bind
      (match attrs with
       | None => Ok (None, None)
       | Some x => match yaml x with
                   | None => Err
                   | Some (d, None) => Ok (d, None)
                   | Some (d, Some v) => res_bind (names_de v) (fun ns => Ok (d, Some ns))
                   end
       end)
      (fun dp =>
         let t := clean_text (join [c_nl] other) in
         let art := mkRaw (fst dp) (snd dp) (match t with [] => None | _ => Some t end) in
         if im_mem name_eqb n out then Err else Ok (im_insert name_eqb n art out)).

  (** raw.rs:217-290, the loop.  [code] is the inner loop: the opening line and the lines
      collected.  At the end of input the inner [break] leaves the inner loop only, so the
      opening line is then pushed as text and the collected lines are dropped. *)
  Fixpoint md_loop (ls : list str) (code : option (str * list str)) (st : md) : res md :=
    match ls with
    | [] => match code with
            | None => Ok st
            | Some (o, _) => Ok (mkMd (md_out st) (md_name st) (md_at st) (md_other st ++ [o]))
            end
    | l :: ls' =>
        match code with
        | Some (o, acc) =>
            if is_match_full code_end_re l
            then md_loop ls' None (mkMd (md_out st) (md_name st) (Some (join [c_nl] acc)) (md_other st))
            else md_loop ls' (Some (o, acc ++ [l])) st
        | None =>
            let twice := match md_name st, md_at st with Some _, Some _ => true | _, _ => false end in
            match header l with
            | Some x =>
                res_bind (match md_name st with
                          | Some n => insert_from_parts (md_out st) n (md_at st) (md_other st)
                          | None => Ok (md_out st)
                          end) (fun out =>
                res_bind (name_from_str x) (fun n =>
                md_loop ls' None (mkMd out (Some n) None [])))
            | None =>
                if is_match_full attrs_end_re l then
                  if twice then Err
                  else md_loop ls' None (mkMd (md_out st) (md_name st) (Some (join [c_nl] (md_other st))) [])
                else if is_match_full attrs_code_re l then
                  if twice then Err else md_loop ls' (Some (l, [])) st
                else md_loop ls' None (mkMd (md_out st) (md_name st) (md_at st) (md_other st ++ [l]))
            end
        end
    end.

  Definition from_markdown (text : str) : res (list (name * art_raw)) :=
    res_bind (md_loop (buf_lines text) None (mkMd [] None None [])) (fun st =>
    match md_name st with
    | Some n => insert_from_parts (md_out st) n (md_at st) (md_other st)
    | None => Ok (md_out st)
    end).

  Variable style : md_attrs.

  (** raw.rs:388-421, [push_attrs]; the empty partof panics *)
  Definition push_attrs (out : str) (r : art_raw) : res str :=
    let o1 := out ++ match style with
                     | CodeBlock p => s "```" ++ match p with Some x => x ++ [c_sp] | None => [] end ++ s "art" ++ [c_nl]
                     | Hashes => []
                     end in
    let o2 := o1 ++ match raw_done r with Some d => yaml_done d ++ [c_nl; c_nl] | None => [] end in
    res_bind
      (match raw_partof r with
       | None => Ok o2
       | Some [] => Panic
       | Some [n] => Ok (o2 ++ s "partof: " ++ n_raw n)
       | Some l => Ok (o2 ++ s "partof:" ++ [c_nl] ++ flat_map (fun n => s "- " ++ n_raw n ++ [c_nl]) (isort name_leb l))
       end) (fun o3 =>
    Ok (trim_end o3 ++ match style with
                       | Hashes => [c_nl] ++ s "###" ++ [c_nl]
                       | CodeBlock _ => [c_nl] ++ s "```" ++ [c_nl]
                       end)).

  (** raw.rs:368-386, [push_artifact_md] *)
  Definition push_artifact_md (out : str) (n : name) (r : art_raw) : res str :=
    let o1 := out ++ prefix ++ s "# " ++ n_raw n ++ [c_nl] in
    res_bind (match raw_done r, raw_partof r with
              | None, None => Ok o1
              | _, _ => push_attrs o1 r
              end) (fun o2 =>
    let o3 := o2 ++ match raw_text r with Some t => t | None => [] end in
    Ok (trim_end o3 ++ [c_nl; c_nl; c_nl])).

  (** raw.rs:357-366, [to_markdown] *)
  Fixpoint push_all (out : str) (l : list (name * art_raw)) : res str :=
    match l with
    | [] => Ok out
    | (n, r) :: l' => res_bind (push_artifact_md out n r) (fun o => push_all o l')
    end.
  Definition to_markdown (l : list (name * art_raw)) : res str :=
    res_bind (push_all [] l) (fun o => Ok (trim_end o)).
End Md.
