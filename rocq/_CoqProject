-Q theories Verif
theories/Rust.v
theories/Internal.v
theories/Prims.v
theories/Derive.v
theories/Host.v
theories/Rows.v
theories/Buffer.v
theories/SpecBuf.v
theories/SpecGlsl.v
theories/SpecHost.v
theories/SpecBlock.v
theories/SpecTypes.v
theories/Cost.v
theories/GlslGen.v
theories/DebugMetrics.v
theories/SpecText.v
theories/Arith.v
theories/RustFacts.v
theories/DeriveFacts.v
theories/TypeFacts.v
theories/SpecLayout.v
theories/LayoutFacts.v
theories/HostFacts.v
theories/GlslFacts.v
theories/PadFacts.v
theories/BufferFacts.v
theories/WriterFacts.v
theories/Samples.v
theories/Conformance.v
theories/Proofs_Buffer.v
theories/Properties_Buffer.v
theories/Client.v
theories/SpecClient.v
theories/ClientFacts.v
theories/Proofs_Client.v
theories/Properties_Client.v
theories/Proofs_Slices.v
theories/Properties_Slices.v
theories/Proofs_Types.v
theories/Properties_Types.v
theories/Proofs_Struct.v
theories/Properties_Struct.v
theories/Proofs_Text.v
theories/Properties_Text.v
theories/Proofs_Debug.v
theories/Properties_Debug.v
theories/SpecEvolve.v
theories/SpecUse.v
theories/Proofs_Portable.v
theories/Properties_Portable.v
theories/Proofs_Evolve.v
theories/Properties_Evolve.v
theories/Proofs_Use.v
theories/Properties_Use.v
theories/SpecGpu.v
theories/GpuFacts.v
theories/Proofs_Gpu.v
theories/Properties_Gpu.v
theories/Cast.v
theories/Proofs_Cast.v
theories/Properties_Cast.v
theories/Proofs_Fit.v
theories/Properties_Fit.v
theories/Proofs_Module.v
theories/Properties_Module.v
theories/SpecChange.v
theories/Proofs_Change.v
theories/Properties_Change.v
theories/Equality.v
theories/SpecEq.v
theories/Proofs_Equality.v
theories/Properties_Equality.v
theories/SpecCalls.v
theories/Proofs_Calls.v
theories/Properties_Calls.v
theories/SpecBytes.v
theories/Proofs_Bytes.v
theories/Properties_Bytes.v
theories/SpecValues.v
theories/Proofs_Values.v
theories/Properties_Values.v
theories/Proofs_BlockBytes.v
theories/Properties_BlockBytes.v
theories/SpecShader.v
theories/Proofs_Shader.v
theories/Properties_Shader.v
theories/SpecConv.v
theories/Proofs_Conv.v
theories/Properties_Conv.v
theories/Sinks.v
theories/SpecSinks.v
theories/Proofs_Sinks.v
theories/Properties_Sinks.v
theories/SpecRowMajor.v
theories/Proofs_RowMajor.v
theories/Properties_RowMajor.v
theories/SpecRuntime.v
theories/Proofs_Runtime.v
theories/Properties_Runtime.v
theories/Proofs_Declare.v
theories/Properties_Declare.v
theories/SpecMath.v
theories/Proofs_Math.v
theories/Properties_Math.v
theories/SpecVulkan.v
theories/Proofs_Vulkan.v
theories/Properties_Vulkan.v
theories/SpecDebug.v
theories/SpecFields.v
theories/SpecNumeral.v
theories/NumeralFacts.v
theories/SpecRetry.v
theories/Proofs_Retry.v
theories/Properties_Retry.v
theories/SpecSize.v
theories/Proofs_Size.v
theories/Properties_Size.v
theories/SpecWgsl.v
theories/Proofs_Wgsl.v
theories/Properties_Wgsl.v
theories/Custom.v
theories/SpecCustom.v
theories/Proofs_Custom.v
theories/Properties_Custom.v
theories/Proofs_Layout.v
theories/Properties_Layout.v
theories/Unwind.v
theories/SpecUnwind.v
theories/Proofs_Unwind.v
theories/Properties_Unwind.v
theories/CustomAny.v
theories/SpecAny.v
theories/Proofs_Any.v
theories/Properties_Any.v
theories/SpecProgram.v
theories/Harness.v
theories/SpecHarness.v
theories/Proofs_Harness.v
theories/Properties_Harness.v
theories/Asserts.v
theories/SpecAsserts.v
theories/Proofs_Asserts.v
theories/Properties_Asserts.v
theories/Methods.v
theories/SpecMethods.v
theories/Proofs_Methods.v
theories/Properties_Methods.v
theories/Tokens.v
theories/SpecTokens.v
theories/Proofs_Tokens.v
theories/Properties_Tokens.v
theories/GlslTokens.v
theories/SpecGlslTokens.v
theories/Proofs_GlslTokens.v
theories/Properties_GlslTokens.v
theories/PrimTokens.v
theories/SpecPrimTokens.v
theories/Proofs_PrimTokens.v
theories/Properties_PrimTokens.v
theories/EasyTokens.v
theories/SpecEasyTokens.v
theories/Proofs_EasyTokens.v
theories/Properties_EasyTokens.v
theories/MintyTokens.v
theories/SpecMintyTokens.v
theories/Proofs_MintyTokens.v
theories/Properties_MintyTokens.v
