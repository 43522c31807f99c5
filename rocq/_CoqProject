-Q theories Verif
theories/Wrapping/Model.v
theories/Wrapping/Spec.v
theories/Wrapping/Proofs.v
theories/Wrapping/Properties.v
theories/Coercion/Json.v
theories/Coercion/Model.v
theories/Coercion/Spec.v
theories/Coercion/Proofs.v
theories/Coercion/Binding.v
theories/Coercion/Properties.v
theories/Limits/Model.v
theories/Limits/Spec.v
theories/Limits/Proofs.v
theories/Limits/Properties.v
theories/Complexity/Model.v
theories/Complexity/Spec.v
theories/Complexity/Proofs.v
theories/Complexity/Properties.v
theories/Shapes/Model.v
theories/Shapes/Spec.v
theories/Shapes/Sets.v
theories/Shapes/Proofs.v
theories/Shapes/Properties.v
theories/Modifiers/Model.v
theories/Modifiers/Spec.v
theories/Modifiers/Proofs.v
theories/Modifiers/Properties.v
theories/Skip/Model.v
theories/Skip/Spec.v
theories/Skip/Proofs.v
theories/Skip/Properties.v
theories/Requires/Model.v
theories/Requires/Spec.v
theories/Requires/Proofs.v
theories/Requires/Properties.v
theories/ErrorShapes/Model.v
theories/ErrorShapes/Spec.v
theories/ErrorShapes/Proofs.v
theories/ErrorShapes/Properties.v
theories/Scheduler/Model.v
theories/Scheduler/Spec.v
theories/Scheduler/Proofs.v
theories/Scheduler/Properties.v
theories/Mutation/Model.v
theories/Mutation/Spec.v
theories/Mutation/Proofs.v
theories/Mutation/Properties.v
theories/Subscription/Model.v
theories/Subscription/Spec.v
theories/Subscription/Proofs.v
theories/Subscription/Properties.v
theories/Response/Model.v
theories/Response/Deserialize.v
theories/Response/Spec.v
theories/Response/Merge.v
theories/Response/Conform.v
theories/Response/Nulls.v
theories/Response/DeserBase.v
theories/Response/DeserList.v
theories/Response/DeserVisit.v
theories/Response/DeserObj.v
theories/Response/DeserAll.v
theories/Response/DeserRoot.v
theories/Response/Accept.v
theories/Response/Legible.v
theories/Response/Failure.v
theories/Response/Conforming.v
theories/Response/Properties.v
theories/OpCache/Tiered.v
theories/OpCache/Model.v
theories/OpCache/Spec.v
theories/OpCache/Keys.v
theories/OpCache/Properties.v
theories/OpCache/Examples.v
theories/EntityCache/Key.v
theories/EntityCache/Ttl.v
theories/EntityCache/Store.v
theories/EntityCache/Batch.v
theories/EntityCache/BatchProofs.v
theories/EntityCache/BatchExamples.v
theories/EntityCache/Root.v
theories/RateLimit/Keys.v
theories/RateLimit/Memory.v
theories/RateLimit/Redis.v
theories/Logger/Model.v
theories/Logger/Properties.v
theories/Logger/Queue.v
theories/Headers/Model.v
theories/Headers/Properties.v
theories/GraphRef/Properties.v
theories/Config/Template.v
theories/Config/Tree.v
theories/Normalizer/Model.v
theories/Normalizer/Sort.v
theories/Normalizer/Spec.v
theories/Normalizer/Normal.v
theories/Normalizer/Documents.v
theories/Normalizer/Examples.v
theories/Normalizer/Sanitize.v
theories/Fetch/Key.v
theories/Fetch/Dedup.v
theories/Fetch/Settings.v
theories/Fetch/Retry.v
theories/SchemaDiff/Ast.v
theories/SchemaDiff/Search.v
theories/SchemaDiff/Diff.v
theories/SchemaDiff/MapFacts.v
theories/SchemaDiff/DocFacts.v
theories/SchemaDiff/DiffProps.v
theories/SchemaDiff/Patch.v
theories/SchemaDiff/PatchFacts.v
theories/SchemaDiff/PatchProps.v
theories/SchemaDiff/PathText.v
theories/SchemaDiff/PathProps.v
theories/Checks/Model.v
theories/Checks/Spec.v
theories/Checks/Facts.v
theories/Checks/Usage.v
theories/Checks/Sound.v
theories/Checks/Inputs.v
theories/Checks/Counts.v
theories/Checks/Decide.v
theories/Checks/Properties.v
theories/Checks/Examples.v
theories/Compose/Model.v
theories/Compose/Spec.v
theories/Compose/Facts.v
theories/Compose/TypeFacts.v
theories/Compose/TypeProps.v
theories/Compose/SchemaFacts.v
theories/Compose/GroupFacts.v
theories/Compose/KindFacts.v
theories/Compose/LookupFacts.v
theories/Compose/EnumProps.v
theories/Compose/Decide.v
theories/Compose/ConflictProps.v
theories/Compose/InputProps.v
theories/Compose/OutputProps.v
theories/Compose/CoverProps.v
theories/Compose/EmitProps.v
theories/Compose/AccessProps.v
theories/Compose/ValidProps.v
theories/SdlValidation/Model.v
theories/SdlValidation/Spec.v
theories/SdlValidation/Facts.v
theories/SdlValidation/CheckFacts.v
theories/SdlValidation/CycleFacts.v
theories/SdlValidation/DocFacts.v
theories/SdlValidation/ReportProps.v
theories/SdlValidation/Textbook.v
theories/SdlValidation/TextbookFacts.v
theories/SdlValidation/TextbookProps.v
theories/SdlValidation/TextbookCheck.v
theories/SdlValidation/ValidProps.v
theories/SdlValidation/PanicCycleProps.v
theories/SdlValidation/OrderProps.v
theories/Arguments/Model.v
theories/Arguments/Spec.v
theories/Arguments/Facts.v
theories/Arguments/AcceptProps.v
theories/Arguments/UseFacts.v
theories/Arguments/SentFacts.v
theories/Arguments/OperationFacts.v
theories/Arguments/OperationProps.v
theories/Arguments/SentProps.v
theories/Arguments/PanicProps.v
theories/Steiner/Model.v
theories/Steiner/Spec.v
theories/Steiner/Facts.v
theories/Steiner/Invariant.v
theories/Steiner/Subtree.v
theories/Steiner/Flow.v
theories/Steiner/Run.v
theories/Steiner/TreeProps.v
theories/Steiner/Cheapest.v
theories/Plans/Model.v
theories/Plans/Spec.v
theories/Plans/Proofs.v
theories/Plans/Modifiers.v
theories/Plans/Properties.v
theories/Plans/Examples.v
theories/Partitions/Model.v
theories/Partitions/Spec.v
theories/Partitions/Proofs.v
theories/Partitions/Run.v
theories/Partitions/Properties.v
theories/Partitions/Examples.v
theories/ResponseKeys/Model.v
theories/ResponseKeys/Spec.v
theories/ResponseKeys/Proofs.v
theories/ResponseKeys/Properties.v
theories/Updater/Model.v
theories/Updater/Spec.v
theories/Updater/Proofs.v
theories/Updater/Estimate.v
theories/Updater/Costly.v
theories/Updater/Loop.v
theories/Updater/Good.v
theories/Updater/Properties.v
theories/Websocket/Model.v
theories/Websocket/Spec.v
theories/Websocket/Proofs.v
theories/Websocket/Properties.v
theories/Front/Status.v
theories/Front/Negotiate.v
theories/Front/Serve.v
theories/Front/Spec.v
theories/Front/Proofs.v
theories/Front/More.v
theories/Front/Properties.v
theories/Front/Prepare.v
theories/Front/PrepareProperties.v
theories/Bind/Model.v
theories/Bind/Spec.v
theories/Bind/Run.v
theories/Bind/Args.v
theories/Bind/Proofs.v
theories/Bind/More.v
theories/Bind/Properties.v
theories/Outgoing/Model.v
theories/Outgoing/Spec.v
theories/Outgoing/Text.v
theories/Outgoing/Vars.v
theories/Outgoing/Proofs.v
theories/Outgoing/Properties.v
theories/Views/Model.v
theories/Views/Spec.v
theories/Views/Trees.v
theories/Views/Reading.v
theories/Views/Authorize.v
theories/Views/Properties.v
theories/Lookup/Model.v
theories/Lookup/Spec.v
theories/Lookup/Store.v
theories/Lookup/Detect.v
theories/Lookup/Values.v
theories/Lookup/Rendering.v
theories/Lookup/Choice.v
theories/Lookup/Properties.v
theories/Contracts/Model.v
theories/Contracts/Spec.v
theories/Contracts/Finalize.v
theories/Contracts/Complete.v
theories/Contracts/Decisions.v
theories/Contracts/Walks.v
theories/Contracts/Properties.v
theories/Introspection/Model.v
theories/Introspection/Spec.v
theories/Introspection/Answers.v
theories/Introspection/Write.v
theories/Introspection/Client.v
theories/Introspection/Rebuild.v
theories/Introspection/Render.v
theories/Introspection/Grammar.v
theories/Introspection/ReadBack.v
theories/Introspection/Properties.v
theories/Introspection/TextProperties.v
theories/SelectionMap/Model.v
theories/SelectionMap/Spec.v
theories/SelectionMap/ReadBack.v
theories/SelectionMap/TextProperties.v
theories/SelectionMap/Binding.v
theories/SelectionMap/BindSpec.v
theories/SelectionMap/Bound.v
theories/SelectionMap/Filled.v
theories/SelectionMap/Required.v
theories/SelectionMap/Served.v
theories/SelectionMap/BindProperties.v
theories/ExtArgs/Template.v
theories/ExtArgs/TemplateSpec.v
theories/ExtArgs/TemplateText.v
theories/ExtArgs/TemplateProperties.v
theories/ExtArgs/Model.v
theories/ExtArgs/Spec.v
theories/ExtArgs/ViewSpec.v
theories/ExtArgs/Coerced.v
theories/ExtArgs/Staged.v
theories/ExtArgs/Properties.v
theories/Supergraph/Model.v
theories/Supergraph/Spec.v
theories/Supergraph/Texts.v
theories/Supergraph/Lists.v
theories/Supergraph/Properties.v
theories/Supergraph/Examples.v
theories/Sdl/Model.v
theories/Sdl/Spec.v
theories/Sdl/Facts.v
theories/Sdl/Properties.v
theories/Sdl/Examples.v
theories/Defaults/Model.v
theories/Defaults/Spec.v
theories/Defaults/Coerced.v
theories/Defaults/Order.v
theories/Defaults/Properties.v
theories/Defaults/Typed.v
theories/Dedup/Model.v
theories/Dedup/Spec.v
theories/Dedup/Invariant.v
theories/Dedup/Properties.v
theories/Dedup/Examples.v
theories/WaitList/Model.v
theories/WaitList/Spec.v
theories/WaitList/Invariant.v
theories/WaitList/Properties.v
theories/WaitList/Examples.v
theories/Pool/Model.v
theories/Pool/Spec.v
theories/Pool/Invariant.v
theories/Pool/Properties.v
theories/Pool/Examples.v
theories/Reload/Model.v
theories/Reload/Spec.v
theories/Reload/Invariant.v
theories/Reload/Pipeline.v
theories/Reload/Properties.v
theories/Reload/Watcher.v
theories/Reload/Examples.v
theories/Links/Model.v
theories/Links/Spec.v
theories/Links/Lemmas.v
theories/Links/Properties.v
theories/Links/Examples.v
theories/Signing/Model.v
theories/Signing/Spec.v
theories/Signing/Lemmas.v
theories/Signing/Properties.v
theories/Signing/Clients.v
theories/Signing/Examples.v
theories/Addresses/Model.v
theories/Addresses/Spec.v
theories/Addresses/Properties.v
theories/Addresses/Examples.v
theories/Catalog/Model.v
theories/Catalog/Spec.v
theories/Catalog/Properties.v
theories/Catalog/Auth.v
theories/Catalog/Events.v
theories/Catalog/Examples.v
theories/Requests/Model.v
theories/Requests/Spec.v
theories/Requests/Properties.v
theories/Requests/Roundtrip.v
theories/Cors/Model.v
theories/Cors/Spec.v
theories/Cors/Properties.v
theories/Cors/Examples.v
theories/Lint/Model.v
theories/Lint/Spec.v
theories/Lint/Properties.v
theories/SdlText/Model.v
theories/SdlText/Spec.v
theories/SdlText/Properties.v
