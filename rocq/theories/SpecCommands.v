(** What is left of a document when its first section cannot be completed. *)
From Coq Require Import ZArith.
From Verif Require Import Base Name Artifact Lint Api Render SpecRender SpecExport.

Section Stump.
  Context {M : num} {H : Type}.
  Variable reported : F M -> Z.
  Variable p : project M H.
  Variable ms : md_settings.

  (** The header, the table of contents, and the first section up to the line that names the file. *)
  Definition stump (ex : md_export) (o : str) : Prop :=
    exists toc e rest family, pr_arts p = e :: rest /\ family_html reported p ms (snd e) family /\
      (if ex_toc ex then exists es, Forall2 (fun (e : name * artifact M H) x => entry reported (fst e) (snd e) x) (pr_arts p) es /\
         toc = line (ms_prefix ms ++ s "# Table Of Contents") ++ concat es ++ line [] ++ line []
       else toc = []) /\
      o = match ex_header ex with Some h => line h | None => [] end ++ toc ++
          line (ms_prefix ms ++ s "# " ++ n_raw (a_name (snd e))) ++
          line (s "<details>") ++ line (s "<summary><b>metadata</b></summary>") ++ line [] ++ family.
End Stump.
