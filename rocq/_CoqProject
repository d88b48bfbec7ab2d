-Q theories Verif
theories/Cpp.v
theories/Base64Model.v
theories/Base64Spec.v
theories/Base64Proofs.v
theories/Base64Props.v
theories/SortedMapSpec.v
theories/SortedMapModel.v
theories/SortedMapProofs.v
theories/SortedMapProps.v
theories/Value.v
theories/ResponseModel.v
theories/ResponseSpec.v
theories/ResponseProofs.v
theories/ResponseProps.v
theories/JSONModel.v
theories/JSONSpec.v
theories/JSONProofs.v
theories/JSONProps.v
theories/ModifiersModel.v
theories/ModifiersSpec.v
theories/ModifiersProofs.v
theories/RoundTripProofs.v
theories/ModifiersProps.v
theories/Ast.v
theories/ErrorModel.v
theories/ExecModel.v
theories/ExecSem.v
theories/ExecSemProofs.v
theories/ExecDirect.v
theories/ExecSpec.v
theories/ExecValues.v
theories/ExecMono.v
theories/ExecProofs.v
theories/ExecProofs2.v
theories/ExecProofs3.v
theories/ExecProofs4.v
theories/ExecCalls.v
theories/ExecCalls2.v
theories/ExecOrder.v
theories/ExecRequest.v
theories/ExecTerm.v
theories/ExecRun.v
theories/ExecRequest2.v
theories/ExecSerial.v
theories/ExecSerial2.v
theories/ExecExamples.v
theories/ExecProps.v
theories/ExecProps2.v
theories/ExecBigSpec.v
theories/ExecBigProofs.v
theories/ExecBigProps.v
theories/SchemaModel.v
theories/ValidationModel.v
theories/ValidationSpec.v
theories/ValidationMaps.v
theories/ValidationValues.v
theories/ValidationValues2.v
theories/ValidationArgs.v
theories/ValidationFields.v
theories/ValidationCheck.v
theories/ValidationSelections.v
theories/ValidationScope.v
theories/ValidationDocument.v
theories/ValidationHistory.v
theories/ValidationHistory2.v
theories/ValidationExamples.v
theories/ValidationUse.v
theories/ValidationRepeats.v
theories/ValidationProps.v
theories/SubscriptionModel.v
theories/SubscriptionSpec.v
theories/SubscriptionProofs.v
theories/SubscriptionHistory.v
theories/SubscriptionDelivery.v
theories/SubscriptionProps.v
theories/SubscriptionProps2.v
theories/SubscriptionProps3.v
theories/RegistryModel.v
theories/RegistrySpec.v
theories/RegistryProofs.v
theories/RegistryProps.v
theories/WrapModel.v
theories/WrapProofs.v
theories/WrapProps.v
theories/IntroModel.v
theories/IntroSpec.v
theories/IntroProofs.v
theories/IntroStandard.v
theories/IntroProps.v
theories/LoaderModel.v
theories/LoaderSpec.v
theories/LoaderProofs.v
theories/GenModel.v
theories/LoaderProps.v
theories/GenSpec.v
theories/GenRun.v
theories/GenEval.v
theories/GenLoad.v
theories/GenDecl.v
theories/GenMain.v
theories/GenProps.v
theories/GenSamples.v
theories/AcceptSpec.v
theories/AcceptProofs.v
theories/AcceptLoaded.v
theories/AcceptProps.v
theories/Peg.v
theories/GrammarModel.v
theories/ParserModel.v
theories/TreeModel.v
theories/ParseSpec.v
theories/PegLook.v
theories/ParseLex.v
theories/ParseUtf8.v
theories/ParseStrings.v
theories/ParseValue.v
theories/ParseComplete.v
theories/ParseDocument.v
theories/ParseSound.v
theories/ParseSoundDoc.v
theories/ParseStringSpec.v
theories/ParseTotal.v
theories/ParseProps.v
theories/PegCost.v
theories/ParseCostProps.v
theories/TypedSpec.v
theories/TypedValues.v
theories/TypedProofs.v
theories/TypedExample.v
theories/TypedProps.v
theories/SdlTree.v
theories/SdlSpec.v
theories/SdlLex.v
theories/SdlSound.v
theories/SdlComplete.v
theories/SdlTexts.v
theories/SdlProps.v
theories/ClientModel.v
theories/ClientSpec.v
theories/ClientProofs.v
theories/ClientProps.v
theories/RepeatsProps.v
theories/ClientSchemaModel.v
theories/ClientSchemaProofs.v
theories/ClientSchemaMain.v
theories/ValidationAlike.v
theories/ClientSchemaProps.v
theories/Layout.v
theories/ValidationLayout.v
theories/RequestTextModel.v
theories/RequestTextProofs.v
theories/RequestTextProps.v
theories/RequestServiceProps.v
theories/ExecLayout.v
theories/LayoutProps.v
theories/Relaid.v
theories/RelaidProofs.v
theories/RelaidProps.v
theories/VariablesModel.v
theories/VariablesSpec.v
theories/VariablesProofs.v
theories/VariablesOrder.v
theories/VariablesCpp.v
theories/VariablesSent.v
theories/VariablesProps.v
theories/SchemaCheck.v
theories/GenServiceModel.v
theories/GenServiceSpec.v
theories/GenServiceArgs.v
theories/GenServiceLink.v
theories/GenServiceProofs.v
theories/GenServiceIntro.v
theories/GenServiceFail.v
theories/GenServiceValues.v
theories/GenServiceProps.v
theories/GenServiceProps2.v
theories/GenSound.v
theories/GenSoundProofs.v
theories/GenSoundProps.v
theories/SubscriptionTypedProps.v
theories/SubscriptionGenProps.v
theories/ReentrantModel.v
theories/ReentrantProps.v
theories/DefaultCodeModel.v
theories/DefaultCodeProofs.v
theories/DefaultCodeRun.v
theories/DefaultCodeProps.v
theories/DefaultCodeDigits.v
theories/DefaultCodeFloatProps.v
theories/DefaultCodeRounding.v
theories/DefaultCodeExactProps.v
