{"id": "C01", "title": "findall matches never overlap and come in text order", "statement": "For every grammar and text on which parser.findall(text) returns, the token ranges of consecutive returned matches satisfy stop_i <= start_{i+1}: no token belongs to two returned matches and matches are listed left to right.", "quantifier": "all grammars (rank, relations, pipelines included), all token sequences, all candidate sets of ranges", "why_tests_cant": "The selection is a dynamic program over an unbounded set of candidate intervals; a test exercises a handful of interval layouts.", "anchors": ["yargy/span.py:resolve_spans", "yargy/span.py:get_nexts", "yargy/parser.py:prepare_resolved_matches", "yargy/parser.py:Parser.findall"]}
{"id": "C02", "title": "findall covers as many tokens as possible", "statement": "Among all sets of pairwise non-overlapping candidate ranges (ranges of parses whose relations hold), the set returned by findall has maximal total length (number of covered tokens).", "quantifier": "all grammars and texts; every competing selection of non-overlapping candidate ranges", "why_tests_cant": "Optimality compares against exponentially many alternative selections.", "anchors": ["yargy/span.py:resolve_spans", "yargy/span.py:span_size", "yargy/parser.py:prepare_resolved_matches"]}
{"id": "C03", "title": "findall's choice among equally covering selections is canonical", "statement": "When several non-overlapping selections cover the same maximal number of tokens, findall returns the one that is lexicographically first in the candidate order (start ascending, then longer first): at the first difference the returned selection has the earlier candidate.", "quantifier": "all candidate lists, all optimal competing selections", "why_tests_cant": "Tie cases are combinatorially many and depend on the DP's comparison (< vs <=).", "anchors": ["yargy/span.py:resolve_spans", "yargy/tree/constructors.py:Tree.__lt__"]}
{"id": "C04", "title": "Every reported parse is a real derivation of the grammar", "statement": "Every state reported by parser.matches/extract/findall/find/match on a text carries a tree that is a derivation of the start rule by the grammar's productions over exactly the tokens of its range, each leaf's token being accepted by the predicate at that place.", "quantifier": "all grammars (recursive, ambiguous, nullable, cyclic), all token sequences, both values of all=, any chart run that finishes", "why_tests_cant": "Soundness ranges over every grammar and text and over the iteration order of live lists.", "anchors": ["yargy/parser.py:Parser.chart", "yargy/parser.py:Parser.predict", "yargy/parser.py:Parser.scan", "yargy/parser.py:Parser.complete", "yargy/parser.py:Column.append"]}
{"id": "C05", "title": "Every parse without empty parts is found", "statement": "If some token range has a derivation from the start rule in which no sub-rule derives the empty sequence, then parser.extract(text) considers exactly that tree for that range (and parser.match does when the range is the whole text). In particular grammars without optional/empty parts are parsed completely.", "quantifier": "all grammars, all texts, all ranges, all derivations with no empty subtree, both values of all=", "why_tests_cant": "Completeness is a statement about all derivations of all grammars.", "anchors": ["yargy/parser.py:Parser.chart", "yargy/parser.py:Parser.complete", "yargy/parser.py:State.parents", "yargy/parser.py:Column.update_index"]}
{"id": "C06", "title": "Every parse is found, optional parts included", "statement": "If some token range has a derivation from the start rule (possibly using optional/empty sub-rules) then it is considered by extract/match.", "quantifier": "all grammars including nullable ones, all texts", "why_tests_cant": "The failure needs a nullable rule whose empty completion is processed before a later parent in the same column appears: an ordering property of a work-list.", "anchors": ["yargy/parser.py:Parser.complete", "yargy/parser.py:Parser.predict", "yargy/parser.py:Column.append"]}
{"id": "C07", "title": "match and findall agree on the whole text", "statement": "If parser.match(text) finds a parse of the complete text, then extract(text)/findall(text) consider that same parse of the complete text.", "quantifier": "all grammars and texts", "why_tests_cant": "Requires relating two runs of the chart (all=False and all=True) on every grammar.", "anchors": ["yargy/parser.py:Parser.matches", "yargy/parser.py:Parser.match", "yargy/parser.py:Parser.findall", "yargy/parser.py:Parser.chart"]}
{"id": "C08", "title": "Parsing terminates for every grammar without derivation cycles", "statement": "If no rule can derive just itself (through unit productions or productions whose other terms can be empty), building the chart terminates on every text, nullable or recursive rules notwithstanding.", "quantifier": "all acyclic grammars, all texts", "why_tests_cant": "Termination of a loop over a list that grows while being iterated cannot be observed by tests.", "anchors": ["yargy/parser.py:Parser.chart", "yargy/parser.py:Column.__iter__", "yargy/parser.py:Column.append"]}
{"id": "C09", "title": "Parsing terminates for every grammar that can be built", "statement": "Parser.match/findall/extract always return for grammars built with the public API, e.g. rule(x.optional(), y.optional()).repeatable() or a forward rule that can be just itself.", "quantifier": "all grammars, all texts", "why_tests_cant": "Non-termination cannot be established by running.", "anchors": ["yargy/parser.py:Parser.complete", "yargy/parser.py:State.__hash__", "yargy/rule/transformators.py:repeatable"]}
{"id": "C10", "title": "No parse is reported twice", "statement": "In any chart, two different states of a column never carry the same derivation: extract yields every (tree, range) at most once, even for ambiguous grammars and duplicated alternatives that share a production object.", "quantifier": "all grammars, all texts, all pairs of reported states", "why_tests_cant": "De-duplication is by object identities of children; uniqueness is a global invariant of the chart.", "anchors": ["yargy/parser.py:Column.append", "yargy/parser.py:State.__hash__", "yargy/parser.py:Parser.scan"]}
{"id": "C11", "title": "Comparing parse trees is a strict total order and never raises", "statement": "For two parses reported for the same range, tree < tree never raises TypeError('different rules'); it is irreflexive, asymmetric, transitive and total on distinct parses, and it is the lexicographic order of the alternative numbers (ranks) read left to right, top-down.", "quantifier": "all pairs/triples of parses of all grammars and texts", "why_tests_cant": "sorted() silently misbehaves if < is not a strict weak order; the code compares by id and returns early.", "anchors": ["yargy/tree/constructors.py:Node.__lt__", "yargy/tree/constructors.py:Tree.__lt__", "yargy/parser.py:Parser.findall", "yargy/parser.py:Parser.match"]}
{"id": "C12", "title": "match returns the most preferred acceptable parse", "statement": "parser.match(text) returns the parse of the whole token sequence that is least in the preference order (earlier alternatives first) among those whose relations hold, and None exactly when there is none among those found.", "quantifier": "all grammars without relation side effects, all texts, all competing parses", "why_tests_cant": "Quantifies over all competing parses.", "anchors": ["yargy/parser.py:Parser.match", "yargy/parser.py:prepare_matches", "yargy/tree/constructors.py:Tree.__lt__"]}
{"id": "C13", "title": "findall keeps, for each range, the most preferred acceptable parse", "statement": "For every range reported by findall the returned match is built from the least tree (preference order) of that range whose relations hold; every range with such a parse is a candidate of the overlap resolution exactly once.", "quantifier": "all grammars, all texts, all ranges", "why_tests_cant": "Quantifies over all competing parses of all ranges.", "anchors": ["yargy/parser.py:prepare_resolved_matches", "yargy/parser.py:Parser.findall"]}
{"id": "C14", "title": "match.tokens are the consecutive tokens of the range and match.span encloses them", "statement": "For every match, match.tokens has one token per token of the range, in order, each with the value, span, type (and tag) of the text's token and with forms that are a sub-list of its forms; match.span is [start of first, stop of last].", "quantifier": "all matches of all grammars and texts", "why_tests_cant": "Leaves pass through predicate.constrain, empty-node removal and relation constraining.", "anchors": ["yargy/parser.py:Match", "yargy/token.py:get_tokens_span", "yargy/tree/constructors.py:dfs_tree", "yargy/tree/transformators.py:PropogateEmptyTransformator"]}
{"id": "C15", "title": "A rule that can be empty is usable as a root rule", "statement": "findall/extract/match return normally (without exception) for a parser whose root rule can match nothing, e.g. Parser(rule('a').optional()).", "quantifier": "all grammars with nullable start rule, all texts", "why_tests_cant": "It must hold for every text and nullable grammar.", "anchors": ["yargy/tree/transformators.py:PropogateEmptyTransformator", "yargy/visitor.py:Visitor.resolve_method", "yargy/parser.py:prepare_match"]}
{"id": "C16", "title": "Pipeline index lookups do not change results", "statement": "For pipeline, caseless_pipeline and morph_pipeline rules, the productions tried at a token by the index lookup include every production whose first term accepts the token, and only such productions; replacing the lookup by trying all productions yields the same set of parses.", "quantifier": "all pipelines, all tokens (plain, morphological, tagged)", "why_tests_cant": "Index and predicate are two independent implementations of matching that must agree on every dictionary and token.", "anchors": ["yargy/pipelines.py:PipelineBNFRule.predict", "yargy/pipelines.py:CaselessPipelineBNFRule.predict", "yargy/pipelines.py:MorphPipelineBNFRule.predict", "yargy/pipelines.py:MorphPipelineBNFRule.build_index"]}
{"id": "C17", "title": "A pipeline matches exactly its dictionary", "statement": "Parser(pipeline(lines)).match(text) accepts iff the token values of text are the token values of one of the lines; caseless_pipeline iff they are equal after lower(); morph_pipeline iff, position by position, some normal form of the text token is a normal form of the line's word.", "quantifier": "all dictionaries, all texts", "why_tests_cant": "All dictionaries and texts.", "anchors": ["yargy/pipelines.py:Pipeline.productions", "yargy/pipelines.py:PipelineScheme.get_key", "yargy/pipelines.py:MorphPipelineScheme.get_key"]}
{"id": "C18", "title": "A pipeline may contain blank lines", "statement": "Building a Parser from a pipeline with an empty or whitespace-only line works (the line matches nothing) instead of raising.", "quantifier": "all dictionaries containing a line without tokens", "why_tests_cant": "Input-dependent crash.", "anchors": ["yargy/pipelines.py:PipelineBNFRule.build_index"]}
{"id": "C19", "title": "Quantifiers denote bounded repetition", "statement": "For a rule r without a quantifier directly inside, and for nested quantifiers that do no harm (all satisfied by one occurrence, or all bounded, perhaps optional as a whole): r.optional() accepts exactly the empty sequence and what r accepts; r.repeatable() one or more; r.repeatable(min=m) at least m; r.repeatable(max=n) between 1 and n; r.repeatable(min=m,max=n) between m and n consecutive occurrences, irrespective of reverse.", "quantifier": "all rules r, all bounds 1<=m<=n, all token sequences, both values of reverse", "why_tests_cant": "Unbounded bounds and languages.", "anchors": ["yargy/rule/transformators.py:ReplaceExtendedTransformator", "yargy/rule/transformators.py:max_bound", "yargy/rule/transformators.py:repeatable", "yargy/rule/transformators.py:optional"]}
{"id": "C20", "title": "repeatable(min,max) validates its bounds", "statement": "repeatable(min,max) raises ValueError exactly when a given non-zero bound is below 1 or max<min; a bound of 0 is treated as not given.", "quantifier": "all integer pairs of optional bounds", "why_tests_cant": "All integers.", "anchors": ["yargy/rule/constructors.py:Rule.repeatable", "yargy/rule/constructors.py:MinMaxBoundedRule", "yargy/check.py:assert_greater_equals"]}
{"id": "C21", "title": "Nested quantifiers compose", "statement": "Applying a quantifier to a quantified rule denotes the composition of the two repetitions, e.g. r.repeatable().repeatable(min=2) needs at least two r, r.repeatable(min=2).repeatable() needs at least two r, r.optional().repeatable(min=2) accepts a single r.", "quantifier": "all pairs of directly nested quantifiers, all rules", "why_tests_cant": "Language equality over all words.", "anchors": ["yargy/rule/transformators.py:SquashExtendedTransformator"]}
{"id": "C22", "title": "Normalisation and BNF conversion preserve what the rule accepts", "statement": "For every rule graph (sequences, alternatives, quantifiers not directly nested or nested without harm, names, interpretations, relations, pipelines, forward references with recursion, shared sub-rules) the grammar stored in Parser.rule accepts exactly the token sequences accepted by the rule as written.", "quantifier": "all rule graphs, all token sequences", "why_tests_cant": "Five graph transformations followed by BNF conversion, all graphs, all words.", "anchors": ["yargy/rule/constructors.py:Rule.normalized", "yargy/rule/constructors.py:Rule.as_bnf", "yargy/rule/transformators.py:FlattenTransformator", "yargy/rule/bnf.py:BNFTransformator", "yargy/rule/bnf.py:RemoveForwardTransformator"]}
{"id": "C23", "title": "Interpretations, relations and names stay on the rule they were put on", "statement": "After BNF conversion, the rule standing for x.interpretation(i) (resp. .match(rel), .named(n)) carries exactly i (resp. rel, n), and a sub-rule shared with another context does not acquire it: other uses of the sub-rule are unaffected.", "quantifier": "all rule graphs with sharing", "why_tests_cant": "Depends on reference counts in arbitrary graphs.", "anchors": ["yargy/rule/bnf.py:BNFTransformator.visit_WrapperRule", "yargy/rule/bnf.py:BNFTransformator.is_shared", "yargy/rule/bnf.py:lift"]}
{"id": "C24", "title": "A forward rule can be defined by any rule", "statement": "forward().define(r) followed by Parser(...) works for every rule r that is not itself a forward rule, and an undefined forward is rejected with TypeError.", "quantifier": "all rules r", "why_tests_cant": "All rule shapes, including quantified ones.", "anchors": ["yargy/rule/constructors.py:ForwardRule.define", "yargy/rule/transformators.py:RuleTransformator.__call__", "yargy/rule/transformators.py:repeatable", "yargy/rule/bnf.py:RemoveForwardTransformator.visit_ForwardRule"]}
{"id": "C25", "title": "Building a parser does not consume the rule", "statement": "Building two parsers from the same rule object gives parsers with the same behaviour (same grammar, interpretations, relations).", "quantifier": "all rule graphs, all histories of Parser(...) constructions", "why_tests_cant": "Depends on the construction history because transformations mutate forward rules and productions in place.", "anchors": ["yargy/rule/transformators.py:RuleTransformator.__call__", "yargy/rule/transformators.py:InplaceRuleTransformator", "yargy/parser.py:Parser.__init__"]}
{"id": "C26", "title": "main(x) designates the main term", "statement": "rule(...) has as main term the unique term wrapped in main(...), the first one when none is wrapped, and raises ValueError when two are; normalisation and BNF conversion keep the designated term.", "quantifier": "all term lists, all rule graphs", "why_tests_cant": "All productions and all transformation sequences.", "anchors": ["yargy/rule/constructors.py:prepare_terms", "yargy/rule/constructors.py:Production", "yargy/rule/transformators.py:FlattenTransformator.visit_Production"]}
{"id": "C27", "title": "Greedy and reverse quantifiers order their alternatives as documented", "statement": "The alternatives of a quantified rule are ordered so that the default form prefers continuing the repetition over stopping (for optional: the empty alternative first) and reverse=True the opposite.", "quantifier": "all quantified rules, bounds and flags", "why_tests_cant": "All bounds.", "anchors": ["yargy/rule/transformators.py:max_bound", "yargy/rule/transformators.py:repeatable", "yargy/rule/transformators.py:repeatable_optional", "yargy/rule/transformators.py:optional"]}
{"id": "C28", "title": "Activation replaces every context-dependent predicate, is idempotent and rejects unknown names", "statement": "After activation no normalized/dictionary/gram/type/tag/custom scheme remains anywhere in the rule; activating again changes nothing; an unknown gram, token type or tag raises ValueError.", "quantifier": "all predicates (arbitrarily nested and_/or_/not_), all contexts", "why_tests_cant": "Unbounded nesting.", "anchors": ["yargy/rule/transformators.py:ActivateTransformator", "yargy/predicates/bank.py:gram.activate", "yargy/predicates/bank.py:type.activate", "yargy/predicates/bank.py:tag.activate", "yargy/predicates/bank.py:custom.activate"]}
{"id": "C29", "title": "Rule transformations do not confuse rules", "statement": "The visited-cache of rule transformations, keyed by id(object), never returns the result computed for a different rule object, whatever addresses the memory allocator hands out.", "quantifier": "all rule graphs, all allocator behaviours that give distinct ids to simultaneously live objects", "why_tests_cant": "The failure depends on address reuse by the allocator after a temporary is freed.", "anchors": ["yargy/rule/transformators.py:RuleTransformator.visit", "yargy/rule/transformators.py:SquashExtendedTransformator"]}
{"id": "C30", "title": "Removing empty nodes keeps the tokens", "statement": "tree.normalized has the same leaves in the same order, contains no node without children, changes nothing in a tree without empty nodes, is idempotent, and has no root exactly when the tree has no leaf.", "quantifier": "all trees", "why_tests_cant": "All trees.", "anchors": ["yargy/tree/transformators.py:PropogateEmptyTransformator"]}
{"id": "C31", "title": "The main term of a rule is the one checked by relations", "statement": "For every match of rule(..., main(x), ...) the token used in relation checks is the main token of the part matched by x.", "quantifier": "all trees, all productions with main, optional parts included", "why_tests_cant": "Depends on which optional parts are empty in a particular parse.", "anchors": ["yargy/tree/constructors.py:Node.main", "yargy/tree/transformators.py:PropogateEmptyTransformator", "yargy/tree/transformators.py:RelationsTransformator"]}
{"id": "C32", "title": "Interpretation sees every token exactly once, under its nearest interpreted rule", "statement": "For a root with an interpretation, the interpreted tree contains exactly the leaves of the match in order; every inner node has an interpretation and its parent is the nearest interpreted ancestor; a root without an interpretation raises ValueError.", "quantifier": "all trees", "why_tests_cant": "All trees.", "anchors": ["yargy/tree/transformators.py:KeepInterpretationNodesTransformator"]}
{"id": "C33", "title": "Relations never reject a consistent assignment", "statement": "If one can pick one morphological form per related token so that every two tokens joined by a relation satisfy it, then the relation check succeeds and every picked form survives in match.tokens.", "quantifier": "all relation graphs, all form sets, all relations", "why_tests_cant": "Exponentially many assignments, arbitrary graphs and edge orders.", "anchors": ["yargy/relations/graph.py:TokenRelationsGraph.validate", "yargy/relations/graph.py:RelationsGraph.edges", "yargy/relations/graph.py:TokenRelationsGraph.constrain"]}
{"id": "C34", "title": "Relations only accept tokens with agreeing forms", "statement": "If the relation check succeeds then every two tokens joined by a relation have, among their surviving forms, a pair satisfying it.", "quantifier": "all relation graphs, all form sets", "why_tests_cant": "Depends on edge order: the filter makes a single pass.", "anchors": ["yargy/relations/graph.py:TokenRelationsGraph.validate"]}
{"id": "C35", "title": "Relation filtering only removes forms, and only from related tokens", "statement": "After a match, the forms of a related token are a sub-list without repetition of its forms before (in order for the first token of an edge), never empty; tokens not touched by relations keep their forms.", "quantifier": "all relation graphs and matches", "why_tests_cant": "All graphs.", "anchors": ["yargy/relations/graph.py:TokenRelationsGraph.validate", "yargy/relations/graph.py:TokenRelationsGraph.constrain", "yargy/tree/transformators.py:ApplyRelationsTransformator"]}
{"id": "C36", "title": "Agreement relations are symmetric and compose as boolean connectives", "statement": "gender, number, case and gnc relations give the same answer with arguments swapped; gnc is the conjunction of the three; and_/or_/not_ of relations are conjunction/disjunction/negation pointwise.", "quantifier": "all pairs of forms with arbitrary gram sets; all nested compositions", "why_tests_cant": "All gram sets.", "anchors": ["yargy/relations/bank.py:gender_relation", "yargy/relations/bank.py:number_relation", "yargy/relations/bank.py:case_relation", "yargy/relations/bank.py:gnc_relation", "yargy/relations/constructors.py:AndRelation"]}
{"id": "C37", "title": "A form agrees with itself", "statement": "gender, number, case and gnc relations hold between a form and itself (two words with identical grammatical forms agree).", "quantifier": "all forms", "why_tests_cant": "All gram sets, e.g. words of common gender.", "anchors": ["yargy/relations/bank.py:gender_relation", "yargy/morph.py:Gender"]}
{"id": "C38", "title": "Matches do not influence each other", "statement": "The tokens and fact of one match, and whether another candidate is accepted, do not depend on which other candidates were examined before.", "quantifier": "all grammars, all texts, all orders of examination", "why_tests_cant": "Leaf objects are shared between parse trees and updated in place: a history property.", "anchors": ["yargy/tree/transformators.py:ApplyRelationsTransformator.visit_Leaf", "yargy/parser.py:prepare_match", "yargy/parser.py:Match"]}
{"id": "C39", "title": "Facts collect attribute values as declared", "statement": "Interpreting into a fact gives each plain attribute the last value set for it in text order (its default if none) and each repeatable attribute the list of all values set, in text order.", "quantifier": "all fact schemes, all sequences of attribute results", "why_tests_cant": "All sequences.", "anchors": ["yargy/interpretation/interpretator.py:FactInterpretator.__call__", "yargy/interpretation/fact.py:InterpretatorFact"]}
{"id": "C40", "title": "Merging partial facts keeps all repeatable values", "statement": "When several parts of a rule are interpreted into the same fact and merged, plain attributes take the last part's value and repeatable attributes keep the values of all parts.", "quantifier": "all sequences of partial facts", "why_tests_cant": "All sequences.", "anchors": ["yargy/interpretation/fact.py:InterpretatorFact.merge", "yargy/interpretation/interpretator.py:FactInterpretator.__call__"]}
{"id": "C41", "title": "as_json shows exactly the attributes that are not None", "statement": "fact.as_json lists, in declaration order, exactly the attributes whose raw value is not None, nested facts and lists converted recursively, agreeing with the attribute values of the fact.", "quantifier": "all facts, arbitrarily nested", "why_tests_cant": "Unbounded nesting.", "anchors": ["yargy/interpretation/fact.py:InterpretatorFact.as_json", "yargy/interpretation/interpretator.py:NormalizerResult.as_json", "yargy/interpretation/fact.py:Fact.as_json"]}
{"id": "C42", "title": "fact.spans lists the spans of the text the fact came from", "statement": "For every match with a fact, fact.spans is sorted by start, every span lies inside match.span and is the span of consecutive tokens of an attribute value; it never raises.", "quantifier": "all matches and interpretations", "why_tests_cant": "All trees and interpretators.", "anchors": ["yargy/interpretation/fact.py:Fact.spans", "yargy/interpretation/fact.py:InterpretatorFact.spans", "yargy/interpretation/interpretator.py:NormalizerInterpretator.__call__", "yargy/interpretation/interpretator.py:NormalizerResult.spans"]}
{"id": "C43", "title": "Interpretation raises TypeError exactly for ambiguous inputs", "statement": "An attribute interpretation raises TypeError iff its part contains a non-token item and more than one item; a normalizer (other than const) likewise; const never raises; facts ignore items that are neither attributes of the fact nor facts of a subclass.", "quantifier": "all item lists", "why_tests_cant": "All item lists.", "anchors": ["yargy/interpretation/interpretator.py:AttributeInterpretator.__call__", "yargy/interpretation/interpretator.py:NormalizerInterpretator.__call__"]}
{"id": "C44", "title": "Custom functions are applied in the order written", "statement": "custom(f).custom(g) yields g(f(value)); normalized().custom(f) yields f(normal form); re-interpreting an attribute result as another attribute passes the value through unchanged and replaces the attribute.", "quantifier": "all functions f,g, all inputs", "why_tests_cant": "All functions.", "anchors": ["yargy/interpretation/normalizer.py:FunctionFunctionNormalizer", "yargy/interpretation/normalizer.py:MorphFunctionNormalizer", "yargy/interpretation/attribute.py"]}
{"id": "C45", "title": "Text of an attribute value is the joined tokens", "statement": "The normalized value of an attribute over tokens is join_tokens of them: token values separated by one space exactly where the text has a gap between consecutive tokens; for a pipeline with normalized() it is the dictionary line.", "quantifier": "all token lists", "why_tests_cant": "All token lists.", "anchors": ["yargy/token.py:format_tokens", "yargy/token.py:join_tokens", "yargy/interpretation/normalizer.py:NormalizedNormalizer.__call__", "yargy/interpretation/interpretator.py:Chain"]}
{"id": "C46", "title": "Tokens are ordered, disjoint, faithful slices of the text", "statement": "For every tokenizer configuration, tokens come in text order without overlap and token.value == text[span.start:span.stop], with the span inside the text.", "quantifier": "all rule lists (arbitrary regular expressions), all texts", "why_tests_cant": "All texts and regular expressions.", "anchors": ["yargy/tokenizer.py:Tokenizer.__call__"]}
{"id": "C47", "title": "The default tokenizer loses no visible character", "statement": "With the default rules every non-space character of the text is inside exactly one token, and every token is non-empty; white space occurs only inside EOL tokens.", "quantifier": "all Unicode texts", "why_tests_cant": "All texts.", "anchors": ["yargy/tokenizer.py:RULES", "yargy/tokenizer.py:Tokenizer.__call__"]}
{"id": "C48", "title": "The default tokenizer takes maximal words and numbers and types them by their characters", "statement": "Each RU, LATIN, INT or EOL token consists only of characters of its class and cannot be extended to the right nor to the left by a character of that class; PUNCT and OTHER tokens are single characters; the type is that of the first rule in the list that applies.", "quantifier": "all Unicode texts", "why_tests_cant": "All texts.", "anchors": ["yargy/tokenizer.py:RULES"]}
{"id": "C49", "title": "join_tokens undoes tokenization up to white space", "statement": "join_tokens(tokenizer(text)) equals the text with each gap between tokens replaced by one space and leading/trailing gaps dropped; with the default rules it contains the same non-space characters in the same order.", "quantifier": "all texts", "why_tests_cant": "All texts.", "anchors": ["yargy/token.py:join_tokens", "yargy/tokenizer.py:Tokenizer.__call__"]}
{"id": "C50", "title": "Tokenizer reconfiguration is prioritised and local", "statement": "add_rules puts the new rules before the existing ones; remove_types removes exactly the rules of those types and raises ValueError (changing nothing) for an unknown type; neither affects other tokenizers built from the default rules.", "quantifier": "all histories of add_rules/remove_types on any number of tokenizers", "why_tests_cant": "Histories and aliasing of the module-level rule list.", "anchors": ["yargy/tokenizer.py:Tokenizer.add_rules", "yargy/tokenizer.py:Tokenizer.remove_types", "yargy/tokenizer.py:Tokenizer.reset"]}
{"id": "C51", "title": "A failed reconfiguration leaves the tokenizer unchanged", "statement": "If add_rules raises (bad type or invalid regular expression) the tokenizer behaves afterwards, under any later operations, as if the call had not been made.", "quantifier": "all histories including failing calls", "why_tests_cant": "Histories with failures.", "anchors": ["yargy/tokenizer.py:Tokenizer.reset", "yargy/tokenizer.py:Tokenizer.compile"]}
{"id": "C52", "title": "The morphology cache is transparent", "statement": "For every history of lookups the cached analyzer returns what the uncached analyzer returns, and holds at most CACHE_SIZE entries.", "quantifier": "all lookup histories", "why_tests_cant": "Histories longer than the cache size.", "anchors": ["yargy/morph.py:CachedMorphAnalyzer", "yargy/morph.py:CACHE_SIZE"]}
{"id": "C53", "title": "Predicates mean what their documentation says, and compose as booleans", "statement": "and_/or_/not_ are pointwise boolean connectives over arbitrarily nested predicates; gte/lte compare the integer value and are false on non-INT tokens; morphological predicates are false on tokens without forms; tag is false on untagged tokens.", "quantifier": "all predicates, all tokens", "why_tests_cant": "Unbounded nesting.", "anchors": ["yargy/predicates/constructors.py:PredicatesComposition", "yargy/predicates/constructors.py:NotPredicate", "yargy/predicates/bank.py:int_required", "yargy/predicates/bank.py:morph_required"]}
{"id": "C54", "title": "A matched gram predicate narrows the token to the matching forms", "statement": "When gram(g) (or is_single) accepts a token, the token in the match keeps exactly the forms satisfying it, in order, and at least one; value, span, type and tag are unchanged.", "quantifier": "all tokens and grams; expected also of and_/or_ compositions", "why_tests_cant": "All forms and compositions.", "anchors": ["yargy/predicates/bank.py:GramPredicate.constrain", "yargy/predicates/bank.py:is_single.constrain", "yargy/predicates/constructors.py:Predicate.constrain", "yargy/parser.py:Parser.scan"]}
{"id": "C55", "title": "Morphological tokenization adds forms to Russian words only", "statement": "MorphTokenizer yields the same values, spans and types as Tokenizer with the same rules; RU tokens carry exactly the analyzer's forms of their value and no other token carries forms.", "quantifier": "all texts, all rule lists", "why_tests_cant": "All texts.", "anchors": ["yargy/tokenizer.py:MorphTokenizer.__call__", "yargy/token.py:Token.morphed"]}
{"id": "C56", "title": "Taggers compose left to right and keep the token", "statement": "TaggersComposition applies its taggers in order; tagging a token keeps value, span, type and forms and adds the tag, also through later form constraining.", "quantifier": "all tagger lists, all tokens", "why_tests_cant": "All compositions.", "anchors": ["yargy/tagger.py:TaggersComposition", "yargy/token.py:MorphToken.tagged", "yargy/token.py:MorphTagToken.constrained"]}
{"id": "C57", "title": "Generated grammar names are total and do not clash", "statement": "In parser grammars (as_bnf.source) every rule has a name: its user name if it has one, otherwise R0, R1, ... numbered consecutively without repetition; distinct unnamed rules never share a name.", "quantifier": "all grammars", "why_tests_cant": "All grammars; user names may look like generated ones.", "anchors": ["yargy/rule/bnf.py:generate_names", "yargy/rule/bnf.py:BNF"]}
{"id": "C58", "title": "Dot output numbers nodes consistently", "statement": "In the dot source every object is given one number, different objects different numbers, and the edges printed are exactly the parent/child pairs of the walked tree.", "quantifier": "all trees and rule graphs", "why_tests_cant": "All graphs.", "anchors": ["yargy/dot.py:Graph.id", "yargy/dot.py:Graph.source", "yargy/dot.py:DotTransformator"]}
{"id": "C59", "title": "Walking a rule graph visits every reachable object exactly once", "statement": "rule.walk() yields each object reachable from the rule exactly once, the rule first, and terminates on cyclic graphs.", "quantifier": "all rule graphs, cyclic ones included", "why_tests_cant": "All graphs.", "anchors": ["yargy/rule/constructors.py:bfs_rule"]}
{"id": "C60", "title": "Walking a tree visits nodes top-down, left to right", "statement": "tree.walk() yields every node of the tree exactly once in pre-order; restricted to leaves it yields the tokens in text order.", "quantifier": "all trees", "why_tests_cant": "All trees.", "anchors": ["yargy/tree/constructors.py:dfs_tree", "yargy/tree/constructors.py:Tree.walk"]}
{"id": "C61", "title": "Record equality is an equivalence and consistent with hashing", "statement": "== on tokens, spans, forms and rules is reflexive, symmetric and transitive, and equal objects have equal hashes.", "quantifier": "all records", "why_tests_cant": "All values, nested records.", "anchors": ["yargy/record.py:Record.__eq__", "yargy/record.py:Record.__hash__", "yargy/span.py:Span.__eq__"]}
{"id": "C62", "title": "match only matches the whole text", "statement": "If parser.match(text) returns a match, its range is the complete token sequence of the text; a text whose tokens are not derivable from the start rule gives None.", "quantifier": "all grammars (recursive start rules included), all texts", "why_tests_cant": "depends on whether the start rule is predicted again at a later position, which needs recursion through the start rule; the tests only match non-recursive roots or texts derived completely", "anchors": ["yargy/parser.py:Parser.match", "yargy/parser.py:Chart.matches"]}
{"id": "C63", "title": "Tokenizing never raises", "statement": "For every tokenizer obtained from the default one by add_rules/remove_types calls that succeeded, tokenizer(text) yields its tokens without raising.", "quantifier": "all rule lists reachable by successful reconfiguration, all texts", "why_tests_cant": "the failing configuration (all rules removed, so that the joined pattern is empty and matches without a group) is never built in the tests; a test can only try finitely many configurations", "anchors": ["yargy/tokenizer.py:63-74", "yargy/tokenizer.py:80-105"]}
{"id": "C64", "title": "find returns the first match of findall", "statement": "parser.find(text) returns None exactly when findall(text) yields nothing, and otherwise the match of findall that comes first in the text; it raises exactly when findall does before its first match.", "quantifier": "all grammars, all token lists", "why_tests_cant": "tests look at one or two texts; the claim needs every grammar and every text", "anchors": ["yargy/parser.py:294-296", "yargy/parser.py:288-292"]}
{"id": "C65", "title": "Every reported match is a piece of the text accepted by the rule as written", "statement": "For a rule built with the library and any text, every match reported by findall, match or extract covers tokens of the text that the rule, as the user wrote it (before normalisation and conversion to BNF), accepts; its tokens are those of the range, its span runs from the first to the last token, and token values are the substrings of the text at their spans.", "quantifier": "all rules built by the library calls, all texts, all tokenizers and taggers in the model", "why_tests_cant": "goes through activation, eight normalisation passes, BNF conversion, Earley chart, tree filters and tokenizer; tests sample a few rules", "anchors": ["yargy/parser.py:240-303", "yargy/rule/constructors.py", "yargy/rule/transformators.py"]}
{"id": "C66", "title": "A text accepted by the rule is found", "statement": "For a rule built with the library without parts that may be empty and without relations, findall(text) does not raise and returns exactly a best choice of non-overlapping pieces of the text accepted by the rule as written; match(text) returns a match ending at the end of the text, and returns None only if the rule does not accept the whole text.", "quantifier": "all such rules, all texts", "why_tests_cant": "completeness: no finite set of texts shows that nothing accepted is missed", "anchors": ["yargy/parser.py:288-303", "yargy/parser.py:257-273"]}
{"id": "C67", "title": "Ambiguous text is read with the earliest alternatives", "statement": "When a rule without empty parts, relations and morphological dictionaries accepts a piece of text in several ways, the reported parse is the reading that takes the earliest alternative, as written by the user, at the first point where the readings differ (repetition longest first, reversed when asked).", "quantifier": "all such rules, all texts", "why_tests_cant": "the order must survive every normalisation pass and the rank comparison of states; tests check one or two ambiguous rules", "anchors": ["yargy/parser.py:79-105", "yargy/rule/transformators.py"]}
{"id": "C68", "title": "Building a parser ends", "statement": "Parser(rule) returns or raises for every rule built with the library, however its forward rules refer to each other and however its quantifiers are nested; it never loops.", "quantifier": "all rules built with the library", "why_tests_cant": "the passes walk a cyclic graph that grows while it is walked: quantifiers are replaced by new forward rules, which are walked too", "anchors": ["yargy/rule/transformators.py:58-75", "yargy/rule/constructors.py:103-133", "yargy/parser.py:252-254"]}
{"id": "C69", "title": "Rules compose as their constructors say", "statement": "rule(a, b, ...) accepts exactly pieces of text made of consecutive pieces accepted by a, b, ... (one token for a predicate or a string); or_(a, b, ...) exactly what one of them accepts; named, interpretation and match change nothing about what is accepted; empty() accepts nothing but the empty piece; a pipeline accepts exactly its lines; optional and repeatable as in C19; f.define(r) makes f accept what r accepts.", "quantifier": "all rules built with the library without directly nested quantifiers, all texts, all tokenizers and taggers", "why_tests_cant": "the rules given to a constructor are arbitrary graphs and are rewritten together by all passes; tests compare a few small grammars", "anchors": ["yargy/api.py:40-83", "yargy/rule/constructors.py:51-300", "yargy/parser.py:252-254"]}
{"id": "C70", "title": "Results do not depend on the iteration order of sets", "statement": "Running the same parser on the same text gives the same matches in every process: the order in which Python iterates sets of strings (which changes with hash randomisation) does not influence what extract, findall, find and match return.", "quantifier": "all rules, texts, tokenizers, taggers, and all iteration orders of sets", "why_tests_cant": "A test run has one hash seed; the order of a set differs between processes, so a dependence shows up only now and then.", "anchors": ["yargy/pipelines.py:MorphPipelineBNFRule.build_index", "yargy/pipelines.py:MorphPipelineBNFRule.predict", "yargy/morph.py:MorphAnalyzer.normalized", "yargy/predicates/bank.py:dictionary.activate"]}
{"id": "C71", "title": "A parser depends only on the structure of its rule", "statement": "Two rules with the same objects linked in the same way give parsers that return the same matches, trees, facts and exceptions on every text, whatever else the program has built and wherever the objects are.", "quantifier": "all rule graphs with shared parts and cycles, all texts, tokenizers and taggers", "why_tests_cant": "The passes use object identity, counters and dictionaries keyed by objects; tests build each rule once, in one order.", "anchors": ["yargy/rule/transformators.py:58-75", "yargy/rule/bnf.py:15-32", "yargy/parser.py:Parser.__init__"]}
{"id": "C72", "title": "Parsing ends for every rule without loops", "statement": "If nothing that may be empty is repeated without bound and no part of a rule may consist of itself (through alternatives, wrappers, forward rules, or sequences whose other items may be empty), then Parser(rule) and findall, find, match and extract end on every text.", "quantifier": "all rules built with the library with forward rules, optional parts and shared parts that meet the condition, all texts, tokenizers and taggers", "why_tests_cant": "The condition is about the rule as written while the loop runs over the grammar that several rewriting passes make of it; non-termination cannot be observed by running.", "anchors": ["yargy/parser.py:Parser.chart", "yargy/rule/transformators.py:161-411", "yargy/rule/bnf.py:15-32"]}
{"id": "C73", "title": "normalized() and inflected() join the words of the first forms", "statement": "The value of a part under normalized() (without a dictionary line) or inflected(grams), as an interpretation of the rule or of an attribute, is the text of its tokens with each word replaced: by the normal form, respectively the inflected form, of the first form of the token (the normal form when the analyzer cannot inflect it), and by the lower case word for tokens without forms; gaps stay where they are in the text. It raises IndexError exactly when some token has an empty list of forms.", "quantifier": "all token lists, forms, grammemes, analyzers (any answers to inflect) and dictionary lines", "why_tests_cant": "All token lists and all answers of the analyzer.", "anchors": ["yargy/token.py:normalize_token", "yargy/token.py:inflect_token", "yargy/token.py:join_inflected_tokens", "yargy/morph.py:Form.inflect", "yargy/interpretation/normalizer.py:19-54"]}
{"id": "C74", "title": "Deduplication by hash value does not change the results", "statement": "Column.append drops a state whose hash value is already in the column. The results of findall, match and extract are those of a parser that compares the states themselves.", "quantifier": "all grammars, predicates, token sequences and hash functions on the hashed tuples", "why_tests_cant": "A collision of 64-bit hashes never shows up in a test.", "anchors": ["yargy/parser.py:74-99", "yargy/parser.py:138-155"]}
{"id": "C75", "title": "Exceptions of predicates", "statement": "Parsing raises only what a function given by the user raised on a token of the text, at a place where a production had come to it; no such exception is lost; when none is raised, the results are those of predicates that only say yes or no.", "quantifier": "all rules, contexts, texts, user functions and fuel", "why_tests_cant": "Tests use functions that do not raise; that no other exception can appear, and none disappear, is a statement about all rules and tokens.", "anchors": ["yargy/parser.py:257-303", "yargy/parser.py:326-337", "yargy/predicates/bank.py:41-60", "yargy/predicates/bank.py:462-510"]}
{"id": "C77", "title": "The text of a drawing is the drawing", "statement": "The text that is given to dot is a text of the language DOT, and read by its grammar it consists of the default styles, the nodes of the drawing in order, each with a name of its own and with its style, and the edges in order with the names of their ends; a leaf of a tree is labelled by its word.", "quantifier": "all drawings and trees, all labels", "why_tests_cant": "Labels come from the text; tests draw a few harmless words.", "anchors": ["yargy/dot.py:29-53", "yargy/dot.py:119-149", "yargy/tree/transformators.py:129-168"]}
{"id": "C78", "title": "Rules that accept the same texts are found at the same places", "statement": "If two rules, however they are written (order and grouping of alternatives, nested or flat sequences, or_ of predicates or of rules, alternatives inside or outside a sequence), accept the same pieces of a text, then findall reports the same ranges and spans for both, find the same first one, and match succeeds for both or for neither.", "quantifier": "all pairs of rules, contexts and texts", "why_tests_cant": "Tests compare a few rewritings of single rules.", "anchors": ["yargy/api.py:40-83", "yargy/parser.py:275-303"]}
{"id": "C79", "title": "What a rule with optional parts accepts is found", "statement": "For a rule built with the library, optional parts included, without relations and not itself empty, findall(text) returns a best choice of non-overlapping pieces of the text accepted by the rule as written, and match(text) returns None only if the rule does not accept the whole text.", "quantifier": "all such rules, all texts", "why_tests_cant": "Whether an optional part is noticed depends on the order of a work list; the failure needs particular combinations of repetitions and optional parts and a text long enough.", "anchors": ["yargy/parser.py:Parser.chart", "yargy/parser.py:Parser.complete", "yargy/parser.py:288-303"]}
{"id": "C80", "title": "Every object is visited by the method meant for it", "statement": "A visitor handles an object with the visit_ method of the closest class: the method's class is an ancestor of the object's class, and no more special class has a method, in the visitor or its ancestors. No visitor of the library meets an object without a method (ValueError), and the passes that turn a rule into a grammar do exactly what the chosen methods say.", "quantifier": "all class hierarchies; all objects of rule graphs and trees, all rule graphs", "why_tests_cant": "Tests exercise the classes that occur in a few rules; multiple inheritance and unused methods go unnoticed.", "anchors": ["yargy/visitor.py:5-29", "yargy/rule/transformators.py:35-410", "yargy/rule/bnf.py:89-170", "yargy/tree/transformators.py:20-168"]}
{"id": "C81", "title": "as_bnf rejects rules that have not been normalized", "statement": "If a rule has a part that is an alternative, an empty rule, an optional, repeated or bounded rule, then as_bnf without normalization does not return a grammar but raises.", "quantifier": "all rules", "why_tests_cant": "No test calls as_bnf on a rule that has not been normalized.", "anchors": ["yargy/rule/bnf.py:105-110", "yargy/rule/transformators.py:98-124"]}
{"id": "C82", "title": "A text is searched piece by piece", "statement": "If two texts are joined with white space between them and nothing the rule accepts lies on both sides of the border, then findall on the joined text returns the matches of the first text followed by the matches of the second text, moved by the length of the first: same spans, tokens and derivations.", "quantifier": "all rules, all pairs of texts, all tokenizers, taggers and predicates that do not look at positions", "why_tests_cant": "Tests search single short sentences; the influence of earlier text on later matches shows only for particular rules with optional parts.", "anchors": ["yargy/parser.py:257-292", "yargy/parser.py:217-229", "yargy/tokenizer.py:98-126"]}
{"id": "C76", "title": "Every rule can be printed and drawn", "statement": "For every rule a parser can be built from, parser.rule.as_bnf.source yields one line for each rule of the grammar and the drawing gives every rule a label; no label raises an exception.", "quantifier": "all rules, predicates, interpretators and relations", "why_tests_cant": "Tests print a few grammars; a label that raises needs a particular normalizer or a function without a name, possibly deep inside and_/or_/not_.", "anchors": ["yargy/rule/bnf.py:34-37", "yargy/rule/bnf.py:61-78", "yargy/rule/constructors.py:40-55", "yargy/interpretation/normalizer.py:50-54", "yargy/predicates/bank.py:503-507"]}
{"id": "C83", "title": "The printed grammar determines what is accepted", "statement": "The lines of parser.rule.as_bnf.source can be read back to the productions of the grammar, and two rules whose grammars print the same text accept the same pieces of every text.", "quantifier": "all pairs of rules, all texts", "why_tests_cant": "Tests compare the text of single grammars with an expected text; whether the text leaves something out needs all pairs of grammars.", "anchors": ["yargy/rule/bnf.py:34-78", "yargy/rule/constructors.py:40-55", "yargy/pipelines.py:36-54"]}
{"id": "C84", "title": "What follows in a text does not change what was found before it", "statement": "If the tokens of one text are those of another one followed by more tokens, extract yields for the longer text first exactly what it yields for the shorter one (and the same exception at the same place). findall returns the matches of the shorter text followed by matches behind its end, provided nothing the rule accepts lies on both sides of that end; a token no predicate of the rule accepts is such a border.", "quantifier": "all rules (also with relations, dictionaries and empty parts), all pairs of texts", "why_tests_cant": "Tests run single texts; that no continuation whatsoever disturbs earlier matches is about all texts, and the look-ahead of dictionaries and the shared empty parts of the chart make it far from obvious.", "anchors": ["yargy/parser.py:217-229", "yargy/parser.py:257-296", "yargy/parser.py:305-348"]}
{"id": "C85", "title": "Arguments of a wrong type are rejected at the call", "statement": "rule, and_, or_, not_, main, the pipelines, the methods optional, repeatable, named, interpretation, match and define, and Parser raise TypeError at the call when an argument has a type they are not made for, and return when the types are right. Whatever is passed to them, the rules they make are well-formed.", "quantifier": "all calls with all combinations of values, all programs of such calls", "why_tests_cant": "Tests pass a few wrong values; that no combination of values slips through, and what the ones that do slip through lead to, is about all values.", "anchors": ["yargy/api.py:40-83", "yargy/check.py:3-34", "yargy/rule/constructors.py:11-25", "yargy/rule/constructors.py:71-93", "yargy/rule/constructors.py:161-292", "yargy/predicates/constructors.py:12-33", "yargy/pipelines.py:133-187", "yargy/parser.py:238-255"]}
{"id": "C86", "title": "Parsing takes polynomial time", "statement": "The number of states in the chart of the parser, and the number of states made while filling it, is bounded by a polynomial in the number of tokens whose coefficients depend on the rule only.", "quantifier": "all rules, all texts", "why_tests_cant": "Tests use short sentences, for which exponential growth is not noticed; a bound is a statement about texts of every length.", "anchors": ["yargy/parser.py:83-92", "yargy/parser.py:127-215", "yargy/parser.py:305-348"]}
{"id": "C87", "title": "No text exceeds Python's stack", "statement": "For every rule a fixed number of stack frames is enough: with this stack findall and match return the same on every text as with an unlimited stack.", "quantifier": "all rules, all texts, all stack sizes", "why_tests_cant": "RecursionError needs texts with long repetitions, which unit tests do not contain; that some stack is enough for all texts is a statement about every length.", "anchors": ["yargy/tree/transformators.py:26-62", "yargy/tree/constructors.py:99-134", "yargy/visitor.py:5-16", "yargy/parser.py:202-229", "yargy/parser.py:288-303"]}
{"id": "C88", "title": "A match does not change after it was reported", "statement": "match.fact is the same whenever it is read: when the match is yielded and after the parser has gone on; and it is made of the tokens that match.tokens shows.", "quantifier": "all rules, all texts, all four methods, all points of the run", "why_tests_cant": "Tests read the fact of one match at once; the difference shows only when another candidate shares a word with it and its relations are applied later.", "anchors": ["yargy/parser.py:177-214", "yargy/parser.py:217-229", "yargy/parser.py:283-303", "yargy/tree/transformators.py:106-126"]}
{"id": "C89", "title": "A token rule matches what its pattern matches alone", "statement": "A list of TokenRules is accepted exactly when every pattern is a valid regular expression, and then every token is the first match of the first rule in the list whose pattern, compiled alone, matches at that place; its type is the type of that rule.", "quantifier": "all lists of rules, all pattern strings, all texts", "why_tests_cant": "Tests use the default rules and one or two simple patterns; the joined expression differs from its parts only for groups, references, names and brackets.", "anchors": ["yargy/tokenizer.py:80-96", "yargy/tokenizer.py:98-105", "yargy/tokenizer.py:25-50"]}
{"id": "C90", "title": "A predicate made with an argument of the wrong kind is rejected, or means the obvious thing", "statement": "Every predicate of the bank called with its documented kind of argument judges tokens as documented, the same way every time; with another kind of argument it is rejected when it is made or when a parser is made of it, and a single string where a collection is expected counts as that one word.", "quantifier": "all predicates with an argument, arguments of any type (None, booleans, integers, strings, lists, sets, iterators, other objects), all tokens in any order, any number of parsers", "why_tests_cant": "Tests pass documented arguments and judge a few tokens once; a wrong argument shows as an error on the first number of some text, as silence, or as different answers the second time.", "anchors": ["yargy/predicates/bank.py:160-347", "yargy/predicates/bank.py:350-431", "yargy/predicates/bank.py:462-501", "yargy/predicates/constructors.py:109-119"]}
{"id": "C91", "title": "A fact shows its attributes whatever they are called and however its class is derived", "statement": "For every class made by fact(name, attributes) and every class derived from such classes, the parser can collect its facts; the Fact object shows each attribute under its name with the collected value or the default, and as_json and spans as computed from the collected values; so do facts made by calling the class.", "quantifier": "all lists of attribute names and declarations, all derived classes, all items collected by the parser, all keyword arguments", "why_tests_cant": "Tests declare a few ordinary names and derive no class; the failures depend on a name that is also used by the Fact class or by Python's calling convention, on a second base class, or on a member of a subclass.", "anchors": ["yargy/interpretation/fact.py:12-41", "yargy/interpretation/fact.py:44-67", "yargy/interpretation/fact.py:70-111", "yargy/interpretation/attribute.py:15-36"]}
{"id": "C92", "title": "Agreement is sharing a case, a number, a gender", "statement": "Two declinable forms agree in case (case_relation, and case within gnc_relation) if and only if they are in a common case, where the second genitive, second accusative and second locative of the dictionary are forms of the genitive, accusative and locative; they agree in number and gender if and only if they share a number and a gender (words of common gender being masculine and feminine, plural forms and forms marked GNdr fitting any gender).", "quantifier": "all pairs of forms with arbitrary sets of grammemes", "why_tests_cant": "Tests compare a few pairs of forms with the frequent cases; the grammeme sets are arbitrary.", "anchors": ["yargy/morph.py:27-57", "yargy/relations/bank.py:13-75"]}
{"id": "C93", "title": "Adding an alternative to a rule never makes the parser find less", "statement": "If a rule r finds something in a text, then or_(..., r, ...), and any rule that accepts everything r accepts, also finds something: findall covers at least as much of the text and each match of r has a token in common with a match of the wider rule, find finds a match, match matches what r matches.", "quantifier": "all rules, all alternatives, all texts, all contexts", "why_tests_cant": "Quantifies over pairs of rules and all texts; the failure depends on the order in which shared optional parts are completed in the chart.", "anchors": ["yargy/parser.py:Parser.predict", "yargy/parser.py:Parser.complete", "yargy/parser.py:Parser.findall", "yargy/rule/constructors.py:OrRule"]}
{"id": "C94", "title": "Building a parser does not run out of Python's stack", "statement": "Parser(rule) can be built for every rule within the stack Python has: the frames the transformators (Squash, ReplaceExtended, ReplaceOr, ReplaceEmpty, Flatten, BNF) need while they recurse over the rule do not depend on the bounds of the rule, RecursionError is not raised, and what is built does not depend on the limit.", "quantifier": "all rules, all limits of the stack, all tokenizers and taggers", "why_tests_cant": "Quantifies over all rules, bounds and stack limits; a test suite only builds parsers for rules with small bounds.", "anchors": ["yargy/rule/transformators.py:max_bound", "yargy/rule/transformators.py:RuleTransformator.visit", "yargy/rule/transformators.py:ReplaceOrTransformator", "yargy/rule/transformators.py:ReplaceEmptyTransformator", "yargy/rule/bnf.py:BNFTransformator"]}
{"id": "C95", "title": "normalized, inflected, const and custom can be chained on attributes and normalizers, and interpretation() takes them", "statement": "Any chain of the methods normalized, inflected, const and custom can be put on an attribute of a fact, repeatable or not; the value is that of the first call on what the rule found, handed through the further calls; the same chain of normalizers gives the same value. predicate.interpretation takes attributes and normalizers, rule.interpretation also fact classes and interpretators, anything else raises TypeError.", "quantifier": "all attributes, all chains of method calls, all functions and constants, all items and keys", "why_tests_cant": "Quantifies over all chains of calls and all functions; tests use one or two calls.", "anchors": ["yargy/interpretation/attribute.py:Attribute", "yargy/interpretation/normalizer.py", "yargy/interpretation/interpretator.py:prepare_token_interpretator", "yargy/interpretation/interpretator.py:prepare_rule_interpretator"]}
{"id": "C96", "title": "EMAIL and PHONE tokens are addresses and phone numbers", "statement": "With EMAIL_RULE and PHONE_RULE every EMAIL token is an address name@host.tail of the text and every PHONE token is one phone number of 10 to 14 digits, without the punctuation or white space around it; an address or number standing alone is one token; other numbers stay whole.", "quantifier": "all texts, all tokenizers with these rules, all character tables", "why_tests_cant": "Quantifies over all texts; the tests tokenize one address.", "anchors": ["yargy/tokenizer.py:EMAIL_RULE", "yargy/tokenizer.py:PHONE_RULE", "yargy/tokenizer.py:Tokenizer.__call__"]}
{"id": "C97", "title": "Labels show the calls an object was made with", "statement": "The labels of predicates, relations, normalizers and interpretators, shown in the text of a grammar and in drawings, are the calls the object was made with: the name with its arguments in brackets separated by commas, calls in a row joined by dots; long arguments are left out. Every object of a rule is drawn with its text and the colour of its kind.", "quantifier": "all predicates, relations, normalizers, interpretators and objects of rules, nested to any depth", "why_tests_cant": "Quantifies over all nested predicates and relations; the tests compare a few labels.", "anchors": ["yargy/predicates/bank.py", "yargy/predicates/constructors.py", "yargy/relations/constructors.py", "yargy/interpretation/normalizer.py", "yargy/interpretation/interpretator.py", "yargy/rule/transformators.py:DotRuleTransformator"]}
{"id": "C98", "title": "Every rule and tree can be printed", "statement": "repr(x) ends for every rule, written or made by Parser, and for the tree of every match; it shows the class with all attributes of the object and of the objects inside, forward rules abbreviated. Pretty printing in IPython ends as well and shows the same apart from spaces and line breaks.", "quantifier": "all rules, recursive or not, before and after Parser, all trees, all layouts chosen by the printer", "why_tests_cant": "Quantifies over all rules; the tests print none.", "anchors": ["yargy/record.py:Record.__repr__", "yargy/record.py:Record._repr_pretty_", "yargy/rule/constructors.py:ForwardRule.__repr__", "yargy/rule/bnf.py:RemoveForwardTransformator", "yargy/tree/constructors.py:Node"]}
{"id": "C99", "title": "The chart shows what has been read", "statement": "The chart holds exactly the readings of the beginnings of productions at the places where their rules may stand, each once, in the column where it ends. Its text has a block for every column with the number, the token and a line for every state; a line tells the range, the rule and the terms before and after the dot. The chart of a parser can always be printed, and different states have different lines.", "quantifier": "all grammars, token lists, rules, with matches beginning anywhere or at the first token, all labels", "why_tests_cant": "Quantifies over all grammars and texts; the tests look at no chart.", "anchors": ["yargy/parser.py:Chart", "yargy/parser.py:Column", "yargy/parser.py:State", "yargy/parser.py:Parser.chart"]}
{"id": "C100", "title": "The fact of a match is what the interpretations written in the rule say of its reading", "statement": "A reading of a rule is a sequence of its predicates in which every interpretation is a pair of brackets; each pair that holds tokens hands what it holds, tokens and results of the pairs directly inside, in order, to its interpretator, which is told the line when it holds a line of a dictionary. The fact of a match is the value of the outermost pair in a reading of the rule as it was written, over the tokens of the match; of several readings of the range it is the earliest. So it does not depend on how the rule is normalised and converted for the parser.", "quantifier": "all rules, interpretators, fact classes, texts and token lists, matches of match, findall and extract", "why_tests_cant": "Quantifies over all rules and texts; the tests look at a few facts of hand-written rules.", "anchors": ["yargy/parser.py:Match.fact", "yargy/tree/transformators.py:InterpretationTransformator", "yargy/tree/transformators.py:KeepInterpretationNodesTransformator", "yargy/rule/bnf.py:BNFTransformator.visit_WrapperRule", "yargy/interpretation/interpretator.py"]}
{"id": "C101", "title": "A rule that is not a part of itself matches whole texts only", "statement": "If the rule given to the parser is not a part of itself, match(text) returns a match exactly if the rule as written accepts the whole text, the match is of all tokens, its fact is the value of the earliest reading of the whole text, and findall(text) then returns one match with the same tree, tokens and span. The rule the parser starts with is used by none of its productions, although normalisation, conversion and the removal of forward rules replace rules by one another.", "quantifier": "all texts and all rules made by rule, or_, named, interpretation or of a dictionary (not a forward, optional or repeated rule at the top), no quantifier put directly on a quantifier, without relations; facts and the comparison with findall without morph_pipeline; parts that may be absent allowed when these come in time", "why_tests_cant": "needs an invariant of all five passes over graphs with sharing and cycles; the tests match a few rules", "anchors": ["yargy/rule/transformators.py:BNFTransformator", "yargy/parser.py:Parser.match", "yargy/parser.py:Parser.findall"]}
