(** Artifact files in JSON: the [serde] implementations of artifact-data/src/raw.rs and
    raw_names.rs over the texts of Json.v. *)
From Verif Require Import Base Name Expand RawNames Artifact Stored Json.

(** ** Writing: modify.rs:364, [json::to_string] *)
Definition j_opt (o : option str) : jval := match o with None => JNull | Some x => JStr x end.
Definition j_names (v : names_val) : jval := match v with VStr x => JStr x | VSeq l => JArr (map JStr l) true end.
(** raw.rs:38-44, the derived [Serialize for ArtifactRaw]; raw.rs:63-73, [Serialize for TextRaw];
    raw_names.rs:83-100, [Serialize for NamesRaw] *)
Definition raw_ser (r : art_raw) : res jval :=
  res_bind (match raw_partof r with None => Ok JNull | Some l => res_bind (names_ser l) (fun v => Ok (j_names v)) end) (fun p =>
  Ok (JObj [(s "done", j_opt (raw_done r)); (s "partof", p); (s "text", j_opt (option_map (fun t => clean_text (trim_end t)) (raw_text r)))] true)).
Definition arts_ser (l : list (name * art_raw)) : res jval :=
  res_bind (res_map (fun e => res_bind (raw_ser (snd e)) (fun v => Ok (n_raw (fst e), v))) l) (fun fs => Ok (JObj fs true)).
(** The text of the file.  [raw_ser] panics on an empty list of names, which
    intermediate.rs:53-72 ([into_raw]) never produces. *)
Definition json_store (l : list (name * art_raw)) : str := match arts_ser l with Ok v => w_val v | _ => [] end.

(** ** Reading: raw.rs:186, [json::from_str] *)
(** [Option<String>] *)
Definition opt_de (v : jval) : res (option str) :=
  match v with JNull => Ok None | JStr x => Ok (Some x) | _ => Err end.
(** raw_names.rs:125-137, [visit_seq]; an element that is no string is an error *)
Fixpoint seq_de (out : list name) (l : list jval) (ok : bool) : res (list name) :=
  match l with
  | [] => if ok then Ok out else Err
  | JStr x :: l' => res_bind (expand_names x) (fun ns => seq_de (is_extend name_eqb out ns) l' ok)
  | _ => Err
  end.
(** raw_names.rs:102-138, [Option<NamesRaw>] *)
Definition partof_de (v : jval) : res (option (list name)) :=
  match v with
  | JNull => Ok None
  | JStr x => res_bind (expand_names x) (fun l => Ok (Some l))
  | JArr l ok => res_bind (seq_de [] l ok) (fun l => Ok (Some l))
  | _ => Err
  end.
(** raw.rs:75-84, [Option<TextRaw>] *)
Definition text_de (v : jval) : res (option str) := res_bind (opt_de v) (fun o => Ok (option_map clean_text o)).

(** raw.rs:38-44, the derived [visit_map]: a field that comes twice is an error, other fields are
    skipped, a missing field is [None] *)
Fixpoint fields_de (d : option (option str)) (p : option (option (list name))) (t : option (option str)) (l : list (str * jval)) (ok : bool) : res art_raw :=
  match l with
  | [] => if ok then Ok (mkRaw (match d with Some x => x | None => None end) (match p with Some x => x | None => None end) (match t with Some x => x | None => None end)) else Err
  | (k, v) :: l' =>
      if str_eqb k (s "done") then match d with Some _ => Err | None => res_bind (opt_de v) (fun x => fields_de (Some x) p t l' ok) end
      else if str_eqb k (s "partof") then match p with Some _ => Err | None => res_bind (partof_de v) (fun x => fields_de d (Some x) t l' ok) end
      else if str_eqb k (s "text") then match t with Some _ => Err | None => res_bind (text_de v) (fun x => fields_de d p (Some x) l' ok) end
      else fields_de d p t l' ok
  end.
(** The derived [Deserialize for ArtifactRaw]: an object, or a list of the three fields. *)
Definition raw_de (v : jval) : res art_raw :=
  match v with
  | JObj l ok => fields_de None None None l ok
  | JArr (a :: l) ok =>
      res_bind (opt_de a) (fun d =>
      match l with
      | [] => Err
      | b :: l =>
          res_bind (partof_de b) (fun p =>
          match l with
          | [] => Err
          | c :: l => res_bind (text_de c) (fun t => match l with [] => if ok then Ok (mkRaw d p t) else Err | _ => Err end)
          end)
      end)
  | _ => Err
  end.
(** [Deserialize for IndexMap<Name, ArtifactRaw>]; artifact-ser/src/name.rs:294-302 *)
Fixpoint arts_de (out : list (name * art_raw)) (l : list (str * jval)) (ok : bool) : res (list (name * art_raw)) :=
  match l with
  | [] => if ok then Ok out else Err
  | (k, v) :: l' => res_bind (name_from_str k) (fun n => res_bind (raw_de v) (fun r => arts_de (im_insert name_eqb n r out) l' ok))
  end.
Definition json_parse (x : str) : res (list (name * art_raw)) :=
  match r_doc x with
  | (JObj l ok, full) => res_bind (arts_de [] l ok) (fun out => if full then Ok out else Err)
  | _ => Err
  end.
