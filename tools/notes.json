{
 "C04": {
  "status": "proved",
  "note": "Exact grammar proved (C04_unquote_grammar) with the sign quirk made explicit; the literal reading 'only documented escapes' is refuted by \\x+1."
 },
 "C05": {
  "status": "partial",
  "note": "Refuted: a rune >= 256 after a backslash makes escapable[ch] index out of range while printing. Proved for literals without a non-ASCII byte directly after a backslash."
 },
 "C07": {
  "status": "proved",
  "note": "Proved for every label with a non-empty target not starting with ':'; idempotence for all inputs; refuted without the side condition (//a::b)."
 },
 "C24": {
  "status": "proved",
  "note": "Proved as stated (text of the docstring). C24_value_loses_newline: the literal's value may lose a line break when a line ends in backslash-blank."
 },
 "C26": {
  "status": "proved",
  "note": "Proved for valid labels; for malformed strings such as @foo//x/:foo the rewrite changes the reference (C26 refuted theorem)."
 },
 "C66": {
  "status": "partial",
  "note": "Proved for every source that does not end with a backslash; a file ending in spaces and a backslash opens an empty block and can make the parser panic inside (C66_dangling_backslash_refuted)."
 },
 "C68": {
  "status": "partial",
  "note": "Proved for every accepted source that does not end with a backslash: the comments of the parsed file are those of the text, each exactly once with text and offset, and comment lines outside brackets are in the order of the text."
 },
 "C30": {
  "status": "partial",
  "note": "Proved for every parsed file, with all its comments, whose layout satisfies PrintSpec.layout: no comment directly before an operand outside brackets, no line breaks or comments inside a tuple without parentheses outside brackets, no string literal of C05's crash. Three machine-checked counterexamples show what happens otherwise: the printed text is rejected."
 },
 "C69": {
  "status": "partial",
  "note": "Refuted: the comment in z = x[ y # c ] is printed without the two spaces, which a second run adds. No positive theorem."
 },
 "C70": {
  "status": "partial",
  "note": "Proved for every such tree, of any depth, in the layout that C30 asks for, except: conditional expressions as operands, after else or after the first comma of a tuple without parentheses, fields of number literals, and the operators is / is not. Each exception is a machine-checked counterexample: the printed text is read as another tree or refused."
 },
 "C64": {
  "status": "partial",
  "note": "Both directions proved for every function and every run, under side conditions on how the function uses that one name. Each side condition is needed: eleven machine-checked counterexamples, six of missed reads (x += 1, fail(x), first iterable, lambda default, loop target, parenthesized target) and five of false alarms. The body of a nested function is not followed."
 },
 "C71": {
  "status": "partial",
  "note": "Code uses: kept and removed exactly, for every file. Annotations: only those made of names, x[y] and x.type; union, tuple and dotted types lose their binding (three counterexamples). Comments of a removed load are lost and a second run may remove more (two counterexamples)."
 },
 "C72": {
  "status": "partial",
  "note": "Proved for every file in which no module is the source of two symbols under one local name. Counterexamples: names used only in annotations, two symbols of one module under one name, comments at the end of a line."
 },
 "C74": {
  "status": "partial",
  "note": "The form of the result is proved for every file. That the declaration keeps what it needs before it is false: it is moved over an assignment it reads (counterexample)."
 },
 "C75": {
  "status": "partial",
  "note": "Both proved for every rule and file, for visibility except exports_files, whose default is public: its private visibility is removed (counterexample)."
 },
 "C76": {
  "status": "partial",
  "note": "Proved for strings without quotes and backslashes and with no other white space than blanks. Counterexamples: a quoted blank is split (the test for quotes looks for the two characters together), a blank string is dropped with its comment."
 },
 "C78": {
  "status": "partial",
  "note": "The form of the result holds for every text; running it again changes nothing if no label is punctuation or called location. Counterexamples: $(execpath foo) is changed, a label called location."
 },
 "C79": {
  "status": "partial",
  "note": "Value and absence of sums proved for every expression; C79_varref_exact gives the exact replacement. Comments on the second list, and comments before varref(...), are lost (counterexamples). varref inside varref is left as a call."
 },
 "C80": {
  "status": "partial",
  "note": "The form is proved for every file; with a starred argument the result does not parse (counterexample)."
 },
 "C81": {
  "status": "partial",
  "note": "Proved for every file with a package(). Without one the licenses are lost, and with a keyword argument the result does not parse (both machine-checked)."
 },
 "C82": {
  "status": "partial",
  "note": "Sound, exact for 'no findings', the first finding and termination for every repository and map order; complete without recursion. With recursion a macro is reported or not depending on map order (counterexample): a negative provisional answer stays in the cache."
 },
 "C83": {
  "status": "proved",
  "note": "C83_options is the statement in full (an equivalence, with the values chosen). A consequence the user does not expect: a category that is on already and is switched on with + is run twice and its findings are reported twice (C83_twice_refuted). Reading of -tables files is not part of the model."
 },
 "C84": {
  "status": "proved",
  "note": "C84_fix and C84_findings. Dictionaries inside type annotations are not visited (C28). The order in which the findings of one file are reported is not part of the statement."
 },
 "C85": {
  "status": "partial",
  "note": "Findings and fix proved in full. The last sentence is false: the check writes to the argument list while it looks (append to a slice of it), so that after --lint=warn the file is written with the last argument doubled (C85_lint_only_refuted, from source text to printed text); proved if cfg = \"data\" is always the last argument."
 },
 "C86": {
  "status": "partial",
  "note": "The form is proved for every file and the value of allow_empty for every value that is not a variable. Counterexamples: a variable becomes True whatever its value, and single_file = x is forgotten if there is an allow_files. Assumes that no reported call is directly a positional argument of another one."
 },
 "C59": {
  "note": "Proved for checks that only read the file, as the type of a check suggests. Not every check does: attr-cfg writes to the tree while it looks (C85_lint_only_refuted), and so warn mode can change the file that is written afterwards."
 },
 "C87": {
  "status": "partial",
  "note": "C87_findings, C87_fix (exact change), C87_again (nothing reported afterwards, if the module was loaded or no statement of the file is itself native.g(...)), C87_meaning (a name without any meaning in the file means the loaded one afterwards). Refuted: a macro wrapping the native rule of the same name becomes recursive; a name loaded from elsewhere is loaded twice; native.g(...) as a statement stays when the load is new (the replacement goes to the old statement list); false reports for lambda parameters, nested functions, parenthesised targets, keywords and imported names of a load."
 },
 "C88": {
  "status": "partial",
  "note": "C88_fix, C88_findings, C88_meaning, C88_again hold for every file; C88_user_function_refuted: a user function named like a builtin (e.g. def len(y = 1, x = 2)) is rewritten too, and then gets the value for another parameter; C88_comments_refuted: comments at the argument are lost."
 },
 "C89": {
  "status": "partial",
  "note": "C89_fix (no such call directly an argument of another), C89_fix_partial (any file), C89_findings, C89_sibling_meaning, C89_output_group; refuted: C89_nested_refuted, C89_keywords_refuted, C89_stars_refuted, C89_comments_refuted, C89_output_group_comments_refuted."
 },
 "C90": {
  "note": "Proved for file systems and paths of any depth (paths whose parts are ordinary names; symbolic links, Windows paths and Go's os.Getwd are not modelled); the stated exceptions are each shown by a counterexample."
 },
 "C91": {
  "status": "partial",
  "note": "Proved for every command at the level of one rule; remove of values for attributes that consist of lists and selects between lists. Refuted: attributes defined twice, replace on an attribute kind, reserved names in print, ambiguous columns."
 },
 "C92": {
  "status": "partial",
  "note": "C92_copy_partial: the statements read from the printed value have the value's meaning; that the first of them is not a comment block is not proved. Refuted for comments outside of brackets."
 },
 "C93": {
  "status": "partial",
  "note": "Refuted for attributes: comment and print_comment look at different nodes."
 },
 "C94": {
  "note": "Whole tool, except running the build tool and the extra-action mode; zip reading and protocol buffer decoding are parameters. Full statement for the main repository; refuted in four ways as listed in the statement."
 },
 "C95": {
  "status": "proved",
  "note": "add and move are exact (C95_add, C95_move), for the list as it is in any configuration; `move old new *` is C40. Refuted: a value taken out of one branch of a select is unconditional in the other attribute. The statement says what is not guaranteed; all of it, with the counterexamples, is proved."
 },
 "C96": {
  "status": "proved",
  "note": "All seven lints are exact, for every file. Refuted: the fix of native-build drops the comments of the node it replaces. The statement says what is not guaranteed; all of it, with the counterexamples, is proved."
 },
 "C97": {
  "status": "proved",
  "note": "All five lints are characterised against a specification of lines, sections and described arguments; panic condition included. C97_column_refuted and C97_line_refuted: the reported positions are wrong. The statement says what is not guaranteed; all of it, with the counterexamples, is proved."
 },
 "C98": {
  "status": "proved",
  "note": "Each lint is characterised exactly; the _refuted theorems show what is not guaranteed (directory boundary, comments, parentheses). The statement says what is not guaranteed; all of it, with the counterexamples, is proved."
 },
 "C99": {
  "status": "proved",
  "note": "Each lint is characterised exactly, the fix node by node; the _refuted theorems show what is not guaranteed (keywords, lambda parameters, nested functions, other dictionaries). The statement says what is not guaranteed; all of it, with the counterexamples, is proved."
 },
 "C100": {
  "status": "proved",
  "note": "C100_types says the detected types satisfy the rules (an inductive relation on places, without the traversal), C100_unique that the rules determine them; the _refuted theorems show where the rules are not what happens at run time. The statement says what is not guaranteed; all of it, with the counterexamples, is proved."
 },
 "C101": {
  "status": "proved",
  "note": "Findings only: the replacements that these lints offer are not modelled."
 },
 "C102": {
  "status": "proved",
  "note": "C102_unique: the specification determines the findings."
 },
 "C103": {
  "status": "proved",
  "note": "C103_iterable_refuted: the first iterable of a comprehension is treated as hidden by its own variables (a used parameter is reported). C103_lambda_refuted: a lambda parameter with a default value does not hide a variable (an unused variable is not reported). Both are part of the specification of C103_unused (hides)."
 },
 "C104": {
  "status": "partial",
  "note": "C104_set, C104_add, C104_no_colon (an argument without a colon is an error, but the arguments before it have already changed an existing dictionary in place), C104_remove (for dictionaries whose keys are strings), C104_replace, C104_list_add. C104_remove_refuted: dict_remove also drops every entry whose key is no string. C104_set_refuted: an attribute that is no dictionary is replaced."
 },
 "C105": {
  "status": "partial",
  "note": "C105_text_partial, C105_comments and C105_docstring hold for texts in which the word occurs at most once. C105_twice_refuted: the positions of the second word are those in the old text, so 'a skylark b Skylark c' becomes 'a starlark bstarlarkk c'. C105_panic_refuted: with the Kelvin sign and the long s (which the case-insensitive expression matches) the linter panics. C105_url_refuted: the slash after the word is looked for one character too late, so 'skylark/docs' is renamed."
 },
 "C106": {
  "status": "proved",
  "note": "C106_set_select, C106_odd. The attribute types are parameters, so the theorem holds for every table."
 },
 "C107": {
  "status": "partial",
  "note": "C107_text (the replaced text), C107_attribute_partial, C107_all_partial, C107_load. Partial: for selects that have only a dictionary (with no_match_error the branches are skipped, C37_no_match_error_refuted), and for * only when no attribute is given twice. The regular expression library is a parameter whose contract is that a match lies in the text."
 },
 "C108": {
  "status": "partial",
  "note": "C108_expand (complete description of the result, with the two cases for links), C108_error. C108_link_refuted: for an argument that is a link to a directory nothing is found and there is no error. C108_directory_refuted: a link to a directory that has the name of a file is taken for a file."
 },
 "C109": {
  "status": "proved",
  "note": "C109_find, C109_once (no file twice). Links below the root are files; what cannot be read is left out without an error."
 }
}